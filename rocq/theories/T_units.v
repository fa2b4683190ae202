(** * Property C130: the unit of measurement does not matter *)
From Verif Require Import Spec Spec_units PyBase M_util M_psavings M_ssavings P_units P_units2.

(** Distances and the length limit in another unit, demands and the capacity in another unit, the
    tolerances with them: the parallel savings algorithm returns the same solution (or fails alike). *)
Theorem C130_parallel_units :
  forall k m ceps seps N D d C L minimize_K,
    0 < k -> 0 < m ->
    parallel_savings_init (m * ceps) (k * seps) N (finer_matrix k D) (finer_demands m d) (finer_limit m C) (finer_limit k L)
      minimize_K (clarke_wright_savings N (finer_matrix k D))
    = parallel_savings_init ceps seps N D d C L minimize_K (clarke_wright_savings N D).
Proof. exact parallel_units. Qed.
Print Assumptions C130_parallel_units.

(** Data in whole units with tolerances smaller than a unit, as with whole numbers and the tolerance
    of 10^-10 in the code: the solution is the one of exact comparisons. *)
Theorem C130_parallel_whole_units :
  forall k m ceps seps N D d C L minimize_K,
    0 <= seps < k -> 0 <= ceps < m ->
    parallel_savings_init ceps seps N (finer_matrix k D) (finer_demands m d) (finer_limit m C) (finer_limit k L)
      minimize_K (clarke_wright_savings N (finer_matrix k D))
    = parallel_savings_init 0 0 N D d C L minimize_K (clarke_wright_savings N D).
Proof. exact parallel_whole. Qed.
Print Assumptions C130_parallel_whole_units.

(** The same for sequential savings: the seeds come in the same order, and for every order of the
    seeds the solution is the same. *)
Theorem C130_sequential_units :
  forall k m ceps seps N D d C L minimize_K mode,
    0 < k -> 0 < m ->
    seed_order N (finer_matrix k D) mode = seed_order N D mode /\
    forall seeds,
      sequential_savings_init (m * ceps) (k * seps) N (finer_matrix k D) (finer_demands m d) (finer_limit m C) (finer_limit k L)
        minimize_K (clarke_wright_seq (finer_matrix k D)) seeds
      = sequential_savings_init ceps seps N D d C L minimize_K (clarke_wright_seq D) seeds.
Proof. exact sequential_units. Qed.
Print Assumptions C130_sequential_units.

Theorem C130_sequential_whole_units :
  forall k m ceps seps N D d C L minimize_K mode,
    0 <= seps < k -> 0 <= ceps < m ->
    seed_order N (finer_matrix k D) mode = seed_order N D mode /\
    forall seeds,
      sequential_savings_init ceps seps N (finer_matrix k D) (finer_demands m d) (finer_limit m C) (finer_limit k L)
        minimize_K (clarke_wright_seq (finer_matrix k D)) seeds
      = sequential_savings_init 0 0 N D d C L minimize_K (clarke_wright_seq D) seeds.
Proof. exact sequential_whole. Qed.
Print Assumptions C130_sequential_whole_units.

(** The tolerance is a constant of the code, so for data as fine as the tolerance the unit matters:
    a length limit exceeded by the tolerance is accepted in one unit and not in the other. *)
Definition ex_uD : matrix := fun i j => if Nat.eqb i j then 0 else 5.
Theorem C130_fixed_tolerance_refuted :
  exists k seps N D d C L,
    0 < k /\ symmetric D /\
    parallel_savings_init 0 seps N (finer_matrix k D) d C (finer_limit k L) false (clarke_wright_savings N (finer_matrix k D))
    <> parallel_savings_init 0 seps N D d C L false (clarke_wright_savings N D).
Proof.
  exists 2, 1, 3%nat, ex_uD, (fun _ => 1), None, (Some 14). split; [lia|]. split.
  - intros i j. unfold ex_uD. now rewrite Nat.eqb_sym.
  - vm_compute. discriminate.
Qed.
Print Assumptions C130_fixed_tolerance_refuted.

(** Kilometres and metres, tonnes and kilograms. *)
Definition ex_uD2 : matrix := fun i j =>
  match Nat.min i j, Nat.max i j with
  | 0%nat, 1%nat => 4 | 0%nat, 2%nat => 6 | 0%nat, 3%nat => 9
  | 1%nat, 2%nat => 3 | 1%nat, 3%nat => 6 | 2%nat, 3%nat => 5 | _, _ => 0
  end.
Example C130_run :
  parallel_savings_init 1 1 4 (finer_matrix 1000 ex_uD2) (finer_demands 1000 (fun _ => 2)) (finer_limit 1000 (Some 4)) (finer_limit 1000 (Some 30))
    false (clarke_wright_savings 4 (finer_matrix 1000 ex_uD2)) = Some (Some (encode [[1]; [2; 3]]%nat)).
Proof. vm_compute. reflexivity. Qed.
Example C130_sequential_run :
  seed_order 4 (finer_matrix 1000 ex_uD2) Farthest = Some [3; 2; 1]%nat /\
  sequential_savings_init 1 1 4 (finer_matrix 1000 ex_uD2) (finer_demands 1000 (fun _ => 2)) (finer_limit 1000 (Some 4)) (finer_limit 1000 (Some 30))
    false (clarke_wright_seq (finer_matrix 1000 ex_uD2)) [3; 2; 1]%nat = Some (encode [[2; 3]; [1]]%nat).
Proof. split; vm_compute; reflexivity. Qed.
