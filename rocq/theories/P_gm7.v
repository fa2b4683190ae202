(** * Gillett and Miller's sweep: solvers for which it ends, examples *)
From Verif Require Import Spec Spec_rfcs Spec_inter Spec_savings Spec_sweep PyBase P_base M_util M_psavings M_ssavings M_savfam M_nn M_sweep M_gm Spec_gm P_rfcs3 P_sweep P_sweep2 P_sweep5 P_ssavings P_gm P_gm2 P_gm5 P_gm6.
From Coq Require Import ZifyBool ZifyNat Lia Arith List Permutation.
Import ListNotations.
Local Open Scope Z_scope.

Lemma exact_no_dearer N D f : symmetric D -> triangle D -> solver N D f -> exact_solver N D f -> no_dearer N f.
Proof.
  intros Hs Ht Hf He s s' Hne Hn Hn' Hc Hi.
  assert (Hpos : forall i j, 0 <= D i j). { intros i j. assert (G1 := Ht i i i). assert (G2 := Ht i j i). rewrite (Hs j i) in G2. lia. }
  destruct (Hf s') as (l' & El & Hl); [intros ->; destruct s as [|a s]; [easy|exact (Hi a (or_introl eq_refl))]|exact Hn'|exact Hc|]. rewrite El. cbn [snd].
  apply Z.le_trans with (route_cost D (filter (fun x => mem x s) l')).
  - apply He; [exact Hne|exact Hn|intros j Hj; apply Hc, Hi, Hj|]. apply NoDup_Permutation; [apply NoDup_filter, (Permutation_NoDup (Permutation_sym Hl) Hn')|exact Hn|].
    intros x. rewrite filter_In, mem_in. split; [tauto|]. intros Hx. split; [|exact Hx]. apply (Permutation_in _ (Permutation_sym Hl)), Hi, Hx.
  - apply filter_cost; assumption.
Qed.

(** ** Spokes: all ways lead through the depot *)
Section Spokes.
Variable h : nat -> Z.
Hypothesis h0 : h 0%nat = 0.
Hypothesis hpos : forall i, 0 <= h i.
Definition star : matrix := fun i j => if Nat.eqb i j then 0 else h i + h j.
Lemma star_path : forall l a, NoDup (a :: l) -> ~ In 0%nat l -> l <> [] -> path_cost star (a :: l ++ [0%nat]) = h a + 2 * demand h l.
Proof.
  induction l as [|b l IH]; intros a Hn H0 Hne; [easy|]. inversion Hn as [|? ? G1 G2]; subst.
  cbn [app]. change (path_cost star (a :: b :: l ++ [0%nat])) with (star a b + path_cost star (b :: l ++ [0%nat])).
  rewrite demand_cons. unfold star at 1. destruct (Nat.eqb_spec a b) as [->|_]; [exfalso; apply G1; now left|].
  destruct l as [|c l].
  - change (demand h []) with 0. change (path_cost star (b :: [] ++ [0%nat])) with (star b 0%nat + 0). unfold star. destruct (Nat.eqb_spec b 0) as [->|_]; [exfalso; apply H0; now left|]. rewrite h0. lia.
  - rewrite IH; [lia|exact G2|intros H; apply H0; now right|discriminate].
Qed.
Lemma star_no_dearer N : no_dearer N (in_sweep_order star).
Proof.
  intros s s' Hne Hn Hn' Hc Hi. unfold in_sweep_order. cbn [snd].
  assert (Hobj : forall l, objf l star = path_cost star l) by (intros l; apply objf_path).
  assert (H0' : ~ In 0%nat s') by (intros H; apply Hc in H; lia). assert (H0 : ~ In 0%nat s) by (intros H; apply H0', Hi, H).
  assert (Hne' : s' <> []) by (intros ->; destruct s as [|a s]; [easy|exact (Hi a (or_introl eq_refl))]).
  rewrite !Hobj. cbn [app]. rewrite !star_path by (try assumption; constructor; assumption).
  assert (G := demand_incl h s s' Hn Hn' Hi ltac:(intros; apply hpos)). lia.
Qed.
End Spokes.

(** ** The example *)
Definition arm (i : nat) : Z := nth i [0;9;3;4;5;6;2] 0.
Definition arms : matrix := star arm.
Definition loads : demands := fun i => nth i [0;4;2;2;2;3;1] 0.
Definition six : list nat := [1;2;3;4;5;6]%nat.
Definition by_number : bool -> nat -> nat -> Z := fun _ _ i => Z.of_nat i.
Lemma arm_pos i : 0 <= arm i.
Proof. do 7 (destruct i as [|i]; [vm_compute; discriminate|]). destruct i; vm_compute; discriminate. Qed.
Lemma loads_pos i : 0 <= loads i.
Proof. do 7 (destruct i as [|i]; [vm_compute; discriminate|]). destruct i; vm_compute; discriminate. Qed.
Lemma arms_alone : served_alone 7 arms loads (Some 8) (Some 30) 0 0.
Proof. intros i Hi. destruct i as [|[|[|[|[|[|[|]]]]]]]; try lia; split; vm_compute; intros _; discriminate. Qed.

(** ** The matrix *)
Lemma restored D e i j : symmetric D -> matrix_after D e i j = D i j.
Proof.
  intros Hs. unfold matrix_after. destruct (Nat.eqb_spec i 0), (Nat.eqb_spec j e), (Nat.eqb_spec i e), (Nat.eqb_spec j 0); cbn [andb orb]; subst; try reflexivity; try apply Hs.
Qed.
Definition uphill : matrix := fun i j => if Nat.eqb i j then 0 else if (i <? j)%nat then 3 else 2.
Lemma not_restored : exists D e i j, triangle D /\ (forall i, D i i = 0) /\ matrix_after D e i j <> D i j.
Proof.
  exists uphill, 1%nat, 1%nat, 0%nat. split; [|split; [intros i; unfold uphill; now rewrite Nat.eqb_refl|vm_compute; discriminate]].
  intros i j k. unfold uphill. destruct (Nat.eqb_spec i k), (Nat.eqb_spec i j), (Nat.eqb_spec j k), (Nat.ltb_spec i k), (Nat.ltb_spec i j), (Nat.ltb_spec j k); lia.
Qed.
Lemma left_changed : exists D e sol, symmetric D /\ triangle D /\ (forall i, D i i = 0) /\ objf sol (path_matrix D e) < objf sol D.
Proof.
  exists arms, 3%nat, [0;3;2;0]%nat. split; [intros i j; unfold arms, star; rewrite (Nat.eqb_sym i j); destruct (Nat.eqb j i); lia|].
  split; [|split; [intros i; unfold arms, star; now rewrite Nat.eqb_refl|vm_compute; reflexivity]].
  intros i j k. unfold arms, star. assert (G1 := arm_pos i). assert (G2 := arm_pos j). assert (G3 := arm_pos k).
  destruct (Nat.eqb_spec i k), (Nat.eqb_spec i j), (Nat.eqb_spec j k); subst; try lia; congruence.
Qed.
Lemma one_limit ceps seps D d C L tsp R cost chain e k x z : ~ limit_set C \/ ~ limit_set L ->
  ~ worth_one ceps seps D d C L tsp R cost chain e k x /\ ~ worth_two ceps seps D d C L tsp R cost chain e k x z.
Proof.
  intros H. assert (G : forall R', ~ can_take ceps seps D d C L tsp R').
  { intros R'. unfold can_take, fits_both_limits. unfold limit_set in H. destruct C, L; tauto. }
  split; intros (G1 & _); exact (G _ G1).
Qed.
