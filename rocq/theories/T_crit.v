(** * C50: choosing an insertion in one pass or in two *)
From Verif Require Import Spec M_cins Spec_crit P_crit.
From Coq Require Import ZifyBool ZifyNat Lia Arith List.
Import ListNotations.
Local Open Scope Z_scope.

(** The places at which the criterion is greatest are those that two passes choose: first the best place of every
    customer, then the best customer.  (The note in parametrized_insertion_criteria.) *)
Theorem C50_one_pass_is_two_passes : forall den ln mn D cands x, In x cands ->
  ((forall y, In y cands -> fst (criterion_at (param_criteria den ln mn D) y) <= fst (criterion_at (param_criteria den ln mn D) x)) <->
   two_pass_choice den ln mn D cands x).
Proof. exact one_pass. Qed.
Print Assumptions C50_one_pass_is_two_passes.

Example C50_one_pass_case :
  let D := fun i j : nat => Z.abs (Z.of_nat i - Z.of_nat j) in
  let cands := [(0, 2, 5); (5, 2, 0); (0, 7, 5); (5, 7, 0)]%nat in
  In (5, 7, 0)%nat cands /\ map (fun y => fst (criterion_at (param_criteria 1 1 1 D) y)) cands = [2; 2; 3; 3].
Proof. split; [cbn; tauto|reflexivity]. Qed.
