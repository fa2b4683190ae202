(** * Headers in any order *)
From Verif Require Import Spec PyBase M_text M_io Spec_io P_text P_io P_io2 P_io3 Spec_coord Spec_header P_coord.
Require Import ZifyBool ZifyNat Lia Permutation.

Section Header.
Context {V : Type}.
Variable parse_float : text -> option V.
Variable vzero : V.
Variable geo : V -> V.
Variable calcD : option text -> list (option (V * V)) -> option (nat * (nat -> nat -> V)).
Notation loop := (read_loop parse_float vzero geo).
Notation rstate := (@rstate V).

Definition said (s : rstate) (h : header_item) : rstate :=
  match h with
  | Remark | Kind => s
  | Dimension n => set_N s (n - 1)
  | Capacity c => set_C s (Some c)
  | WeightType t => set_ewt s t
  end.

Lemma loop_header hs : forall ls (s : rstate) t, Forall2 header_line ls hs ->
  (forall w, In (WeightType w) hs -> known_ewt w = true) ->
  loop s (map (fun l => l ++ [newline]) ls ++ t) = loop (fold_left said hs s) t.
Proof.
  induction hs as [|h hs IH]; intros ls s t HF HK; inversion HF as [|l ? ls' ? (_ & field & value & E & Hh) HF']; subst; [reflexivity|].
  cbn [map app fold_left]. rewrite <- strip_newline in E. rewrite (loop_field _ _ _ _ _ _ _ _ E).
  assert (Er : read_field s (strip field) value = Ok (said s h)).
  { unfold read_field. destruct h; cbn [said].
    - destruct Hh as [Hty HFa]. destruct (text_eqb (str "TYPE") (strip field)) eqn:Et.
      { apply text_eqb_eq in Et. congruence. }
      rewrite Forall_forall in HFa. rewrite !HFa by (cbn [In]; tauto). reflexivity.
    - destruct Hh as [-> Hv]. change (text_eqb (str "TYPE") (str "TYPE")) with true. cbn iota. now rewrite Hv.
    - destruct Hh as [-> Hv]. change (text_eqb (str "TYPE") (str "DIMENSION")) with false.
      change (contains (str "DIMENSION") (str "DIMENSION")) with true. cbn iota. now rewrite Hv.
    - destruct Hh as [-> Hv]. change (text_eqb (str "TYPE") (str "CAPACITY")) with false.
      change (contains (str "DIMENSION") (str "CAPACITY")) with false.
      change (contains (str "CAPACITY") (str "CAPACITY")) with true. cbn iota. now rewrite Hv.
    - destruct Hh as [-> Hv]. change (text_eqb (str "TYPE") (str "EDGE_WEIGHT_TYPE")) with false.
      change (contains (str "DIMENSION") (str "EDGE_WEIGHT_TYPE")) with false.
      change (contains (str "CAPACITY") (str "EDGE_WEIGHT_TYPE")) with false.
      change (contains (str "EDGE_WEIGHT_TYPE") (str "EDGE_WEIGHT_TYPE")) with true. cbn iota zeta.
      rewrite Hv. now rewrite (HK t0) by (now left). }
  rewrite Er. cbn [bind]. apply IH; [exact HF'|]. intros w Hw. apply HK. now right.
Qed.

Lemma said_data hs : forall s : rstate, fold_left said hs s = fold_left said (filter is_datum hs) s.
Proof. induction hs as [|h hs IH]; intros s; [reflexivity|]. cbn [fold_left filter]. destruct h; cbn [is_datum fold_left]; apply IH. Qed.

Lemma said_all hs n c w (s : rstate) : Permutation hs [Dimension n; Capacity c; WeightType w] ->
  fold_left said hs s = set_C (set_ewt (set_N s (n - 1)) w) (Some c).
Proof.
  intros HP. pose proof (Permutation_length HP) as HL. destruct hs as [|x [|y [|z [|]]]]; try discriminate HL. clear HL.
  assert (ND : NoDup [x; y; z]).
  { apply (Permutation_NoDup (Permutation_sym HP)). repeat constructor; cbn; intuition discriminate. }
  pose proof (Permutation_in x HP (or_introl eq_refl)) as Hx.
  pose proof (Permutation_in y HP (or_intror (or_introl eq_refl))) as Hy.
  pose proof (Permutation_in z HP (or_intror (or_intror (or_introl eq_refl)))) as Hz.
  clear HP. inversion ND as [|? ? N1 ND1]; subst. inversion ND1 as [|? ? N2 _]; subst. clear ND ND1. cbn [In] in *.
  destruct Hx as [<-|[<-|[<-|[]]]]; destruct Hy as [<-|[<-|[<-|[]]]]; try (now exfalso; tauto);
    destruct Hz as [<-|[<-|[<-|[]]]]; try (now exfalso; tauto); reflexivity.
Qed.

Lemma any_type_known t : any_type t -> known_ewt t = true.
Proof. apply (any_type_elim parse_float vzero geo (fun t => known_ewt t = true)). repeat (apply Forall_cons; [reflexivity|]). apply Forall_nil. Qed.

Lemma header_same header n ewt c ls es ls' es' :
  header_of n c ewt header -> any_type ewt ->
  Forall2 (point_line parse_float) ls es -> Forall2 (load_line parse_float) ls' es' ->
  read_TSPLIB_CVRP parse_float vzero geo calcD (tsplib_file header ls ls') =
  read_TSPLIB_CVRP parse_float vzero geo calcD (coord_file [] n ewt c ls ls').
Proof.
  intros (hs & HH & HP) He HF HF'. rewrite (read_to_points parse_float vzero geo calcD [] n ewt c ls es ls' es') by auto.
  unfold read_TSPLIB_CVRP, tsplib_file. rewrite readlines_file.
  2:{ assert (P0 : Forall one_line header).
      { clear -HH. induction HH as [|? ? ? ? [H _]]; constructor; auto. }
      assert (P1 : Forall one_line ls).
      { apply plain_one_line. clear -HF. induction HF as [|? ? ? ? [H _]]; constructor; auto. }
      assert (P2 : Forall one_line ls').
      { apply plain_one_line. clear -HF'. induction HF' as [|? ? ? ? [H _]]; constructor; auto. }
      apply Forall_app. split; [exact P0|]. apply Forall_cons; [apply one_line_str; reflexivity|]. apply Forall_app. split; [exact P1|].
      apply Forall_cons; [apply one_line_str; reflexivity|]. rewrite Forall_app. split; [exact P2|].
      repeat (apply Forall_cons; [apply one_line_str; reflexivity|]). apply Forall_nil. }
  rewrite map_app. rewrite (loop_header hs) by (exact HH || (intros w Hw; apply any_type_known;
    assert (Hi : In (WeightType w) (filter is_datum hs)) by (apply filter_In; now split);
    apply (Permutation_in _ HP) in Hi; cbn in Hi; destruct Hi as [Hi|[Hi|[Hi|[]]]]; try discriminate; now injection Hi as <-)).
  rewrite said_data, (said_all _ _ _ _ _ HP). cbn [map app].
  rewrite loop_plain by (try discriminate; reflexivity).
  set (s0 := set_C _ _).
  assert (E0 : ewt_is s0 (str "EXPLICIT") = false) by (exact (any_type_explicit parse_float vzero geo _ He)).
  match goal with |- context [read_plain ?a ?b ?c ?s ?l] =>
     replace (read_plain a b c s l) with (Ok (set_update (set_points (set_section s0 SecCoord) 0 (repeat None n)) true)) end.
  2:{ transitivity (Ok (if negb (ewt_is s0 (str "EXPLICIT")) then set_update (set_points (set_section s0 SecCoord) 0 (repeat None (Z.to_nat (rs_N s0 + 1)))) true else set_points (set_section s0 SecCoord) 0 (repeat None (Z.to_nat (rs_N s0 + 1))))).
      - rewrite E0. cbn [negb]. change (rs_N s0) with (Z.of_nat n - 1)%Z. now replace (Z.to_nat (Z.of_nat n - 1 + 1)) with n by lia.
      - reflexivity. }
  cbn [bind]. rewrite map_app. reflexivity.
Qed.

Lemma known_supported t : known_ewt t = true <-> In t supported.
Proof.
  unfold known_ewt. rewrite existsb_exists. split.
  - intros (x & Hx & E). apply text_eqb_eq in E. subst x. unfold supported. cbn [In] in *. tauto.
  - intros H. exists t. split; [unfold supported in H; cbn [In] in *; tauto|now apply text_eqb_eq].
Qed.

Lemma header_refused header items l rest :
  Forall2 header_line header items -> (forall w, In (WeightType w) items -> In w supported) ->
  unsupported_line l -> Forall one_line rest ->
  read_TSPLIB_CVRP parse_float vzero geo calcD (file_of (header ++ l :: rest)) = Raise IOError.
Proof.
  intros HH HK (Hl & field & value & E & HU) HR. unfold read_TSPLIB_CVRP. rewrite readlines_file.
  2:{ apply Forall_app. split; [|constructor; auto]. clear -HH. induction HH as [|? ? ? ? [H _]]; constructor; auto. }
  rewrite map_app. rewrite (loop_header items) by (exact HH || (intros w Hw; now apply known_supported, HK)).
  cbn [map app]. rewrite <- strip_newline in E. rewrite (loop_field _ _ _ _ _ _ _ _ E).
  set (s := fold_left said items _).
  replace (read_field s (strip field) value) with (@Raise rstate IOError); [reflexivity|].
  unfold read_field. destruct HU as [(-> & H1 & H2)|(-> & H1)].
  - change (text_eqb (str "TYPE") (str "TYPE")) with true. cbn iota. now rewrite H1, H2.
  - change (text_eqb (str "TYPE") (str "EDGE_WEIGHT_TYPE")) with false.
    change (contains (str "DIMENSION") (str "EDGE_WEIGHT_TYPE")) with false.
    change (contains (str "CAPACITY") (str "EDGE_WEIGHT_TYPE")) with false.
    change (contains (str "EDGE_WEIGHT_TYPE") (str "EDGE_WEIGHT_TYPE")) with true. cbn iota zeta.
    destruct (known_ewt (strip value)) eqn:Ek; [|reflexivity]. apply known_supported in Ek. now exfalso.
Qed.
End Header.
