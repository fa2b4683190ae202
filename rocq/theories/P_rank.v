(** * Proofs for the ranking of pairs by saving *)
From Coq Require Import Sorted.
From Verif Require Import Spec Spec_savings Spec_savfam PyBase M_psavings M_savfam P_savfam3.

Lemma outranks_irrefl a : ~ outranks a a.
Proof. destruct a as (((s & x) & i) & j). unfold outranks. lia. Qed.
Lemma outranks_asym a b : outranks a b -> outranks b a -> False.
Proof. destruct a as (((s & x) & i) & j), b as (((s' & x') & i') & j'). unfold outranks. lia. Qed.

Lemma sorted_same_members : forall l1 l2, StronglySorted outranks l1 -> StronglySorted outranks l2 ->
  (forall a, In a l1 <-> In a l2) -> l1 = l2.
Proof.
  induction l1 as [|a t1 IH]; intros l2 S1 S2 H.
  - destruct l2 as [|b t2]; [reflexivity|]. exfalso. apply (H b). now left.
  - destruct l2 as [|b t2]; [exfalso; apply (H a); now left|].
    inversion S1 as [|? ? S1' F1]; subst. inversion S2 as [|? ? S2' F2]; subst.
    rewrite Forall_forall in F1, F2.
    assert (E : a = b).
    { destruct (proj1 (H a) (or_introl eq_refl)) as [E|Ha]; [now symmetry|].
      destruct (proj2 (H b) (or_introl eq_refl)) as [E|Hb]; [exact E|].
      exfalso. exact (outranks_asym _ _ (F1 _ Hb) (F2 _ Ha)). }
    subst b. f_equal. apply IH; [assumption|assumption|]. intros c. split; intros Hc.
    + destruct (proj1 (H c) (or_intror Hc)) as [<-|Hc']; [|exact Hc']. exfalso. exact (outranks_irrefl _ (F1 _ Hc)).
    + destruct (proj2 (H c) (or_intror Hc)) as [<-|Hc']; [|exact Hc']. exfalso. exact (outranks_irrefl _ (F2 _ Hc)).
Qed.

Lemma ranking_unique N D v l1 l2 : ranking N D v l1 -> ranking N D v l2 -> l1 = l2.
Proof.
  intros (S1 & H1) (S2 & H2). apply sorted_same_members; [assumption|assumption|].
  intros (((s & x) & i) & j). rewrite H1, H2. reflexivity.
Qed.

Lemma clarke_wright_ranking N D : (2 <= N)%nat -> ranking N D (saved D) (clarke_wright_savings N D).
Proof. intros HN. exact (savings_list_ranking N D (saved D) HN). Qed.
