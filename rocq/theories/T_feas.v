(** * Property C131: demands and limits matter only through which routes they allow *)
From Verif Require Import Spec Spec_inter Spec_savings Spec_feas PyBase M_util M_psavings M_ssavings M_savfam P_psavings2 P_feas P_feas2 P_feas3.

(** Two instances with the same distances on which the same routes are feasible have the same
    solution, whatever the demands, limits and tolerances are, for every list of pairs to merge. *)
Theorem C131_only_feasibility_matters :
  forall N D d d' C C' L L' ceps ceps' seps seps' minimize_K,
    (2 <= N)%nat -> symmetric D ->
    (forall r, possible_route N r -> (feasible D d C L ceps seps r <-> feasible D d' C' L' ceps' seps' r)) ->
    forall savings, valid_pairs N savings ->
    parallel_savings_init ceps seps N D d C L minimize_K savings
    = parallel_savings_init ceps' seps' N D d' C' L' minimize_K savings.
Proof. exact parallel_alike. Qed.
Print Assumptions C131_only_feasibility_matters.

(** A capacity that is enough for all customers together is like no capacity. *)
Theorem C131_spare_capacity :
  forall ceps seps N D d C L minimize_K savings,
    (2 <= N)%nat -> symmetric D -> valid_pairs N savings ->
    (forall n, 0 <= d n) -> 0 <= ceps -> demand d (seq 1 (N - 1)) <= C ->
    parallel_savings_init ceps seps N D d (Some C) L minimize_K savings
    = parallel_savings_init ceps seps N D d None L minimize_K savings.
Proof. exact parallel_spare. Qed.
Print Assumptions C131_spare_capacity.

(** The same for sequential savings, for every savings function and every order of the seeds. *)
Theorem C131_sequential :
  forall N D d d' C C' L L' ceps ceps' seps seps' minimize_K callback,
    symmetric D ->
    (forall r, possible_route N r -> (feasible D d C L ceps seps r <-> feasible D d' C' L' ceps' seps' r)) ->
    forall seeds,
    sequential_savings_init ceps seps N D d C L minimize_K callback seeds
    = sequential_savings_init ceps' seps' N D d' C' L' minimize_K callback seeds.
Proof. exact sequential_alike. Qed.
Print Assumptions C131_sequential.

Theorem C131_sequential_spare_capacity :
  forall ceps seps N D d C L minimize_K callback seeds,
    symmetric D -> (forall n, 0 <= d n) -> 0 <= ceps -> demand d (seq 1 (N - 1)) <= C ->
    sequential_savings_init ceps seps N D d (Some C) L minimize_K callback seeds
    = sequential_savings_init ceps seps N D d None L minimize_K callback seeds.
Proof. exact sequential_spare. Qed.
Print Assumptions C131_sequential_spare_capacity.

(** And for Gaskell's savings, with both criteria or one of them. *)
Theorem C131_gaskell :
  forall N D d d' C C' L L' ceps ceps' seps seps' minimize_K,
    (2 <= N)%nat -> symmetric D ->
    (forall r, possible_route N r -> (feasible D d C L ceps seps r <-> feasible D d' C' L' ceps' seps' r)) ->
    forall method,
    gaskell_savings_init ceps seps N D d C L minimize_K method
    = gaskell_savings_init ceps' seps' N D d' C' L' minimize_K method.
Proof. exact gaskell_alike. Qed.
Print Assumptions C131_gaskell.

(** Two customers of demand 2 with capacity 4, or of demand 3 with capacity 7. *)
Definition ex_fD : matrix := fun i j =>
  match Nat.min i j, Nat.max i j with
  | 0%nat, 1%nat => 4 | 0%nat, 2%nat => 6 | 0%nat, 3%nat => 9
  | 1%nat, 2%nat => 3 | 1%nat, 3%nat => 6 | 2%nat, 3%nat => 5 | _, _ => 0
  end.
Example C131_symmetric : symmetric ex_fD.
Proof. intros i j. unfold ex_fD. now rewrite Nat.min_comm, Nat.max_comm. Qed.
Example C131_same_feasible : forall r, possible_route 4 r ->
  (feasible ex_fD (fun _ => 2) (Some 4) (Some 20) 0 0 r <-> feasible ex_fD (fun _ => 3) (Some 7) (Some 20) 0 0 r).
Proof.
  intros r _. assert (E : forall c, demand (fun _ => c) r = c * Z.of_nat (length r)).
  { intros c. induction r as [|x r IH]; [cbn; lia|]. change (demand (fun _ => c) (x :: r)) with (c + demand (fun _ => c) r). rewrite IH. cbn [length]. lia. }
  unfold feasible, within. rewrite !E. lia.
Qed.
Example C131_runs :
  parallel_savings_init 0 0 4 ex_fD (fun _ => 2) (Some 4) (Some 20) false (clarke_wright_savings 4 ex_fD) = Some (Some (encode [[1]; [2; 3]]%nat)) /\
  parallel_savings_init 0 0 4 ex_fD (fun _ => 3) (Some 7) (Some 20) false (clarke_wright_savings 4 ex_fD) = Some (Some (encode [[1]; [2; 3]]%nat)) /\
  parallel_savings_init 0 0 4 ex_fD (fun _ => 2) (Some 6) None false (clarke_wright_savings 4 ex_fD)
  = parallel_savings_init 0 0 4 ex_fD (fun _ => 2) None None false (clarke_wright_savings 4 ex_fD).
Proof. repeat split; vm_compute; reflexivity. Qed.
Example C131_pairs : valid_pairs 4 (clarke_wright_savings 4 ex_fD) /\ demand (fun _ => 2) (seq 1 (4 - 1)) <= 6.
Proof. split; [apply clarke_wright_valid|vm_compute; discriminate]. Qed.
Example C131_sequential_runs :
  sequential_savings_init 0 0 4 ex_fD (fun _ => 2) (Some 4) (Some 20) false (clarke_wright_seq ex_fD) [3; 2; 1]%nat = Some (encode [[2; 3]; [1]]%nat) /\
  sequential_savings_init 0 0 4 ex_fD (fun _ => 3) (Some 7) (Some 20) false (clarke_wright_seq ex_fD) [3; 2; 1]%nat = Some (encode [[2; 3]; [1]]%nat).
Proof. split; vm_compute; reflexivity. Qed.
