(** * Properties C25, C44: the lists of savings are determined by what is said of them *)
From Coq Require Import Sorted.
From Verif Require Import Spec Spec_savings Spec_savfam PyBase M_psavings P_rank.

(** The list used by the parallel savings algorithm holds every pair of customers once with Clarke
    and Wright's saving, largest saving first and the closer pair first among equal savings. *)
Theorem C25_clarke_wright_ranking :
  forall N D, (2 <= N)%nat -> ranking N D (saved D) (clarke_wright_savings N D).
Proof. exact clarke_wright_ranking. Qed.
Print Assumptions C25_clarke_wright_ranking.

(** There is only one such list, so the lists in the statements of C44 leave no choice. *)
Theorem C44_ranking_unique :
  forall N D value l1 l2, ranking N D value l1 -> ranking N D value l2 -> l1 = l2.
Proof. exact ranking_unique. Qed.
Print Assumptions C44_ranking_unique.

(** Two equal savings: the closer pair comes first. *)
Definition ex_rD : matrix := fun i j =>
  match Nat.min i j, Nat.max i j with
  | 0%nat, 1%nat => 4 | 0%nat, 2%nat => 6 | 0%nat, 3%nat => 9
  | 1%nat, 2%nat => 3 | 1%nat, 3%nat => 6 | 2%nat, 3%nat => 5 | _, _ => 0
  end.
Example C25_ties : clarke_wright_savings 4 ex_rD = [(10, -5, 2%nat, 3%nat); (7, -3, 1%nat, 2%nat); (7, -6, 1%nat, 3%nat)].
Proof. reflexivity. Qed.
Example C44_a_ranking : exists l, ranking 4 ex_rD (saved ex_rD) l /\ length l = 3%nat.
Proof. exists (clarke_wright_savings 4 ex_rD). split; [apply C25_clarke_wright_ranking; lia|reflexivity]. Qed.
