(** * C104: every heuristic and the validation *)
From Verif Require Import Spec Spec_inter Spec_savings Spec_petal PyBase M_util M_cvrp_ops M_psavings M_savfam M_cli Spec_all P_all T_psavings.
From Coq Require Import ZifyBool ZifyNat Lia Arith List Permutation.
Import ListNotations.
Local Open Scope Z_scope.

(** Whatever any of the heuristics returns passes validate_solution_feasibility: it is a list of routes from and to the
    depot that serve everybody once within the limits. *)
Theorem C104_every_heuristic : forall N D d C L eps sol, problem N D d C L eps -> returned N D d C L eps sol ->
  passes N D d C L eps sol /\ exists rs, sol = encode rs /\ serves_all N D d C L eps rs.
Proof. intros. split; [apply returned_passes; assumption|apply returned_served; assumption]. Qed.
Print Assumptions C104_every_heuristic.

Definition allD : matrix := fun i j => Z.abs (Z.of_nat i * Z.of_nat i - Z.of_nat j * Z.of_nat j).
Definition alld : demands := fun n => if Nat.eqb n 0 then 0 else 2.
Example C104_problem : problem 5 allD alld (Some 4) (Some 60) 0.
Proof.
  split.
  - lia.
  - lia.
  - intros i j. unfold allD. lia.
  - intros i j. unfold allD. lia.
  - reflexivity.
  - intros n. unfold alld. destruct (Nat.eqb n 0); lia.
  - reflexivity.
  - intros i Hi. assert (X : i = 1%nat \/ i = 2%nat \/ i = 3%nat \/ i = 4%nat) by lia. destruct X as [->|[->|[->| ->]]]; split; cbn; lia.
Qed.
Example C104_returned :
  returned 5 allD alld (Some 4) (Some 60) 0 [0; 1; 2; 0; 3; 4; 0]%nat /\
  passes 5 allD alld (Some 4) (Some 60) 0 [0; 1; 2; 0; 3; 4; 0]%nat /\
  ~ passes 5 allD alld (Some 4) (Some 60) 0 [0; 3; 4; 1; 0; 2; 0]%nat.
Proof.
  split; [|split; [vm_compute; reflexivity|vm_compute; discriminate]].
  apply (By_parallel_savings 5 allD alld (Some 4) (Some 60) 0 false (clarke_wright_savings 5 allD)); [apply C25_clarke_wright_list|vm_compute; reflexivity].
Qed.
