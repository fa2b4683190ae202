(** * Property C66: the choice among equal savings *)
From Verif Require Import Spec Spec_mbsa Spec_mbties PyBase M_mbsa P_mbties.

(** Of the pairs chosen by the integer program the one that saves most is joined, and among those the
    one with which the least savings of other pairs are given up. *)
Theorem C66_ties :
  forall mm sv n x w i j,
    pairs_of n sv -> mm sv n = MipOptimal x -> mmp_solve mm true sv n = MmBest w i j ->
    In (w, (i, j)) (picked x sv) /\
    forall e, In e (picked x sv) -> fst e < w \/ fst e = w /\ given_up sv (w, (i, j)) <= given_up sv e.
Proof. exact ties_spec. Qed.
Print Assumptions C66_ties.

(** Two chosen pairs save 5; with the pair 0-1 less is given up. *)
Definition ex_tie : list (Z * (nat * nat)) := [(5, (0, 1)%nat); (4, (0, 2)%nat); (4, (0, 3)%nat); (3, (1, 2)%nat); (4, (1, 3)%nat); (5, (2, 3)%nat); (1, (2, 4)%nat)].
Example C66_ties_case :
  pairs_of 5 ex_tie /\
  mmp_solve (fun _ _ => MipOptimal [true; false; false; false; false; true; false]) true ex_tie 5 = MmBest 5 0 1 /\
  given_up ex_tie (5, (0, 1)%nat) = 15 /\ given_up ex_tie (5, (2, 3)%nat) = 16.
Proof. split; [repeat constructor; cbn; lia|]. repeat split; vm_compute; reflexivity. Qed.
