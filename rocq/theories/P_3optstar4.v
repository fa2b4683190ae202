(** * Proofs about 3-opt*: what every move makes of the pieces *)
From Coq Require Import ZifyBool ZifyNat.
From Verif Require Import Spec Spec_inter PyBase M_util M_psavings M_3optstar P_base P_util P_intra P_3optstar P_3optstar2 P_3optstar3.

(** The part of a piece up to its last depot, and the rest. *)
Definition c1 (c : chunk) : chunk := match c with Cl s => Cl [] | Op l rs r => Op l rs [] end.
Definition c2 (c : chunk) : chunk := match c with Cl s => Cl s | Op l rs r => Cl r end.
Lemma c12 c : nodes c = nodes (c1 c) ++ nodes (c2 c).
Proof. destruct c; cbn [c1 c2 nodes]; [reflexivity|]. now rewrite app_nil_r, <- app_assoc. Qed.
Lemma c1_len c : length (nodes (c1 c)) = upto_len c.
Proof. destruct c; cbn [c1 nodes upto_len]; [reflexivity|]. now rewrite app_nil_r. Qed.
Lemma wfc_c1 c : wfc c -> wfc (c1 c).
Proof. destruct c; cbn [c1 wfc]; [constructor|]. intros (H & H1 & _). repeat split; try assumption. constructor. Qed.
Lemma wfc_c2 c : wfc c -> wfc (c2 c).
Proof. destruct c; cbn [c2 wfc]; [easy|]. now intros (_ & _ & H). Qed.

(** The pieces a move puts one after the other. *)
Definition chains (A B C E : chunk) : list (list chunk) :=
  [ [glue A B; rv C; E]; [A; rv (glue B C); E]; [A; rv B; glue C E]; [A; rv B; rv C; E];
    [A; C; B; E]; [A; C; rv B; E]; [A; rv C; B; E];
    [A; glue C E; c2 B; c1 B]; [A; rv C; E; c2 B; c1 B]; [A; E; glue (c2 B) C; c1 B]; [A; E; c2 B; rv C; c1 B];
    [glue A B; E; c2 C; c1 C]; [A; rv B; E; c2 C; c1 C]; [A; E; c2 C; glue B (c1 C)]; [A; E; c2 C; rv B; c1 C];
    [A; E; c2 B; c1 B; c2 C; c1 C] ].
Definition chains_for (A B C E : chunk) : list (list chunk) :=
  let ch := chains A B C E in
  match is_op B, is_op C with
  | true, true => ch
  | true, false => firstn 11 ch
  | false, true => firstn 7 ch ++ firstn 4 (skipn 11 ch)
  | false, false => firstn 7 ch
  end.

Section Recipes.
  Variables (ra re : list (list nat)) (pa pe : list nat) (B C : chunk) (i j k : nat).
  Hypothesis Hpa : customers_only pa.
  Hypothesis Hpe : customers_only pe.
  Hypothesis WB : wfc B.
  Hypothesis WC : wfc C.
  Hypothesis SB : solid B.
  Hypothesis SC : solid C.
  Let a := encode ra ++ pa.
  Let b := nodes B.
  Let c := nodes C.
  Let e := pe ++ encode re.
  Hypothesis Li : (S i = length a)%nat.
  Hypothesis Lj : (S j = length a + length b)%nat.
  Hypothesis Lk : (S k = length a + length b + length c)%nat.
  Let sol := a ++ b ++ c ++ e.
  Let cuts := cuts_of sol i j k.
  Let A := Op [] ra pa.
  Let E := Op pe re [].

  Definition seg_is s (ch : chunk) : Prop := seg sol cuts s = nodes ch.
  Lemma cut7 : nth 7 cuts None = if is_op B then Some (length a + upto_len B)%nat else None.
  Proof. unfold cuts, cuts_of. cbn [nth]. unfold sol, a, b, c, e. eapply rd12_eq; eassumption. Qed.
  Lemma cut9 : nth 9 cuts None = if is_op C then Some (length a + length b + upto_len C)%nat else None.
  Proof. unfold cuts, cuts_of. cbn [nth]. unfold sol, a, b, c, e. eapply rd34_eq; eassumption. Qed.
  Lemma nodes_A : nodes A = a. Proof. reflexivity. Qed.
  Lemma nodes_E : nodes E = e. Proof. unfold E, e. cbn [nodes]. now rewrite app_nil_r. Qed.

  Ltac sg := unfold seg_is, seg; unfold cuts, cuts_of; cbn [nth py_slice]; rewrite ?nodes_glue, ?nodes_rv, ?nodes_glue, ?nodes_A, ?nodes_E; fold b c; unfold sol.
  Lemma s_01 : seg_is (None, Some 1%nat, true) A.
  Proof. sg. apply slice_to_app. lia. Qed.
  Lemma s_03 : seg_is (None, Some 3%nat, true) (glue A B).
  Proof. sg. rewrite (app_assoc a). apply slice_to_app. rewrite app_length. lia. Qed.
  Lemma s_5 : seg_is (Some 5%nat, None, true) E.
  Proof. sg. rewrite !app_assoc. apply slice_from_app. rewrite !app_length. lia. Qed.
  Lemma s_3 : seg_is (Some 3%nat, None, true) (glue C E).
  Proof. sg. rewrite (app_assoc a). apply slice_from_app. rewrite !app_length. lia. Qed.
  Lemma s_35 : seg_is (Some 3%nat, Some 5%nat, true) C.
  Proof. sg. rewrite (app_assoc a). apply slice_app; rewrite !app_length; lia. Qed.
  Lemma s_13 : seg_is (Some 1%nat, Some 3%nat, true) B.
  Proof. sg. apply slice_app; lia. Qed.
  Lemma s_42 : seg_is (Some 4%nat, Some 2%nat, false) (rv C).
  Proof. sg. rewrite (app_assoc a). apply rslice_app; rewrite !app_length; lia. Qed.
  Lemma s_20 : seg_is (Some 2%nat, Some 0%nat, false) (rv B).
  Proof. sg. apply rslice_app; lia. Qed.
  Lemma s_40 : seg_is (Some 4%nat, Some 0%nat, false) (rv (glue B C)).
  Proof. sg. rewrite (app_assoc b). apply rslice_app; rewrite ?app_length; lia. Qed.
  Ltac c7 H := unfold seg_is, seg; rewrite cut7, H; unfold cuts, cuts_of; cbn [nth py_slice]; rewrite ?nodes_glue, ?nodes_rv, ?nodes_glue, ?nodes_A, ?nodes_E; fold b c; unfold sol.
  Ltac c9 H := unfold seg_is, seg; rewrite cut9, H; unfold cuts, cuts_of; cbn [nth py_slice]; rewrite ?nodes_glue, ?nodes_rv, ?nodes_glue, ?nodes_A, ?nodes_E; fold b c; unfold sol.
  Lemma b12 : b = nodes (c1 B) ++ nodes (c2 B). Proof. apply c12. Qed.
  Lemma cc12 : c = nodes (c1 C) ++ nodes (c2 C). Proof. apply c12. Qed.
  Lemma lb12 : length b = (upto_len B + length (nodes (c2 B)))%nat. Proof. rewrite b12, app_length, c1_len. lia. Qed.
  Lemma lc12 : length c = (upto_len C + length (nodes (c2 C)))%nat. Proof. rewrite cc12, app_length, c1_len. lia. Qed.
  Lemma s_73 : is_op B = true -> seg_is (Some 7%nat, Some 3%nat, true) (c2 B).
  Proof.
    intros H. c7 H. pose proof lb12. rewrite b12, <- (app_assoc (nodes (c1 B))), (app_assoc a (nodes (c1 B))).
    apply slice_app; rewrite !app_length, c1_len; lia.
  Qed.
  Lemma s_17 : is_op B = true -> seg_is (Some 1%nat, Some 7%nat, true) (c1 B).
  Proof.
    intros H. c7 H. pose proof lb12. rewrite b12, <- (app_assoc (nodes (c1 B))).
    apply slice_app; rewrite ?c1_len; lia.
  Qed.
  Lemma s_75 : is_op B = true -> seg_is (Some 7%nat, Some 5%nat, true) (glue (c2 B) C).
  Proof.
    intros H. c7 H. pose proof lb12. rewrite b12, <- (app_assoc (nodes (c1 B))), (app_assoc (nodes (c2 B))), (app_assoc a (nodes (c1 B))).
    apply slice_app; rewrite !app_length, c1_len; lia.
  Qed.
  Lemma s_95 : is_op C = true -> seg_is (Some 9%nat, Some 5%nat, true) (c2 C).
  Proof.
    intros H. c9 H. pose proof lc12. rewrite cc12, <- (app_assoc (nodes (c1 C))), (app_assoc b), (app_assoc a).
    apply slice_app; rewrite !app_length, c1_len; lia.
  Qed.
  Lemma s_39 : is_op C = true -> seg_is (Some 3%nat, Some 9%nat, true) (c1 C).
  Proof.
    intros H. c9 H. pose proof lc12. rewrite cc12, <- (app_assoc (nodes (c1 C))), (app_assoc a).
    apply slice_app; rewrite ?app_length, ?c1_len; lia.
  Qed.
  Lemma s_19 : is_op C = true -> seg_is (Some 1%nat, Some 9%nat, true) (glue B (c1 C)).
  Proof.
    intros H. c9 H. pose proof lc12. rewrite cc12, <- (app_assoc (nodes (c1 C))), (app_assoc b).
    apply slice_app; rewrite ?app_length, ?c1_len; lia.
  Qed.

  Lemma lens : (i < j < k)%nat /\ (k + 1 < length sol)%nat.
  Proof.
    pose proof (nodes_ne B SB). pose proof (nodes_ne C SC). assert (length b <> 0)%nat by (unfold b; now destruct (nodes B)).
    assert (length c <> 0)%nat by (unfold c; now destruct (nodes C)). assert (length e >= 1)%nat by (unfold e; rewrite app_length; cbn; lia).
    unfold sol. rewrite !app_length. lia.
  Qed.
  Lemma step_f new x t ch : (x <= 5)%nat -> seg_is (Some x, t, true) ch -> recipe_step sol cuts new (Some x, t, true) = djoin new (nodes ch).
  Proof. intros Hx <-. apply step_fwd. do 6 (destruct x as [|x]; [exact I|]). lia. Qed.
  Lemma step_f7 new t ch : is_op B = true -> seg_is (Some 7%nat, t, true) ch -> recipe_step sol cuts new (Some 7%nat, t, true) = djoin new (nodes ch).
  Proof. intros Hx <-. apply step_fwd. rewrite cut7, Hx. exact I. Qed.
  Lemma step_f9 new t ch : is_op C = true -> seg_is (Some 9%nat, t, true) ch -> recipe_step sol cuts new (Some 9%nat, t, true) = djoin new (nodes ch).
  Proof. intros Hx <-. apply step_fwd. rewrite cut9, Hx. exact I. Qed.
  Lemma step_b42 new : recipe_step sol cuts new (Some 4%nat, Some 2%nat, false) = djoin new (nodes (rv C)).
  Proof. rewrite <- s_42. pose proof lens. eapply step_bwd; [reflexivity|reflexivity|lia]. Qed.
  Lemma step_b20 new : recipe_step sol cuts new (Some 2%nat, Some 0%nat, false) = djoin new (nodes (rv B)).
  Proof. rewrite <- s_20. pose proof lens. eapply step_bwd; [reflexivity|reflexivity|lia]. Qed.
  Lemma step_b40 new : recipe_step sol cuts new (Some 4%nat, Some 0%nat, false) = djoin new (nodes (rv (glue B C))).
  Proof. rewrite <- s_40. pose proof lens. eapply step_bwd; [reflexivity|reflexivity|lia]. Qed.

  Ltac onestep :=
    first [ rewrite step_b42 | rewrite step_b20 | rewrite step_b40
          | rewrite (fun new => step_f new 5 None E ltac:(lia) s_5) | rewrite (fun new => step_f new 3 None (glue C E) ltac:(lia) s_3)
          | rewrite (fun new => step_f new 3 (Some 5%nat) C ltac:(lia) s_35) | rewrite (fun new => step_f new 1 (Some 3%nat) B ltac:(lia) s_13)
          | rewrite (fun new => step_f7 new (Some 3%nat) (c2 B) ltac:(assumption) (s_73 ltac:(assumption)))
          | rewrite (fun new => step_f new 1 (Some 7%nat) (c1 B) ltac:(lia) (s_17 ltac:(assumption)))
          | rewrite (fun new => step_f7 new (Some 5%nat) (glue (c2 B) C) ltac:(assumption) (s_75 ltac:(assumption)))
          | rewrite (fun new => step_f9 new (Some 5%nat) (c2 C) ltac:(assumption) (s_95 ltac:(assumption)))
          | rewrite (fun new => step_f new 3 (Some 9%nat) (c1 C) ltac:(lia) (s_39 ltac:(assumption)))
          | rewrite (fun new => step_f new 1 (Some 9%nat) (glue B (c1 C)) ltac:(lia) (s_19 ltac:(assumption))) ].
  Lemma recipes : Forall2 (fun m ch => apply_recipe sol cuts (snd m) = fold_left djoin (map nodes ch) [])
                    (moves_for (is_op B) (is_op C)) (chains_for A B C E).
  Proof.
    unfold moves_for, chains_for, chains, moves_3optstar, apply_recipe. cbn [firstn skipn app].
    destruct (is_op B) eqn:HB, (is_op C) eqn:HC; repeat apply Forall2_cons; try apply Forall2_nil; cbn [snd fold_left map];
      rewrite step_first, ?s_01, ?s_03, djoin_nil; repeat onestep; reflexivity.
  Qed.
End Recipes.
