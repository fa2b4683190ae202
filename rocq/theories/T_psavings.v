(** * Properties C25, C26, C42: parallel savings *)
From Verif Require Import Spec Spec_inter Spec_savings PyBase M_util M_psavings P_psavings2.

(** Five customers in two clusters of a star-shaped network. *)
Definition ex_sD : matrix := fun i j =>
  match i, j with
  | O, O => 0 | O, _ => 10 | _, O => 10
  | _, _ => Z.min 20 (2 * Z.abs (Z.of_nat i - Z.of_nat j))
  end.
Example ex_sD_symmetric : symmetric ex_sD.
Proof. intros [|i] [|j]; unfold ex_sD; lia. Qed.
Example ex_served_alone : served_alone 6 ex_sD (fun _ => 1) (Some 3) (Some 40) 0 0.
Proof. intros [|i] H; [lia|]. split; cbn; lia. Qed.

(** ** C25 *)

(** Any savings list over pairs of customers, sorted or not, complete or not. *)
Theorem C25_parallel_savings :
  forall ceps seps N D d C L minimize_K savings,
    (2 <= N)%nat -> symmetric D -> served_alone N D d C L ceps seps -> valid_pairs N savings ->
    exists rs, parallel_savings_init ceps seps N D d C L minimize_K savings = Some (Some (encode rs)) /\
      covers N rs /\ Forall (fun r => r <> []) rs /\ Forall (feasible D d C L ceps seps) rs /\
      (minimize_K = false -> routes_cost D rs <= routes_cost D (map (fun i => [i]) (seq 1 (N - 1)))).
Proof. exact parallel_result. Qed.
Print Assumptions C25_parallel_savings.

(** The default savings list meets the hypothesis. *)
Theorem C25_clarke_wright_list : forall N D, valid_pairs N (clarke_wright_savings N D).
Proof. exact clarke_wright_valid. Qed.
Print Assumptions C25_clarke_wright_list.

Example C25_run :
  parallel_savings_init 0 0 6 ex_sD (fun _ => 1) (Some 3) (Some 40) false (clarke_wright_savings 6 ex_sD)
  = Some (Some (encode [[1; 2]; [3; 4; 5]]%nat)).
Proof. vm_compute. reflexivity. Qed.

(** With asymmetric distances the length limit can be broken: the check uses D[0,i] and D[0,j]
    only.  The matrix of the example is asymmetric at the depot. *)
Theorem C25_asymmetric_refuted :
  exists N D d C L savings rs, served_alone N D d C L 0 0 /\ valid_pairs N savings /\
    parallel_savings_init 0 0 N D d C L false savings = Some (Some (encode rs)) /\
    ~ Forall (feasible D d C L 0 0) rs.
Proof.
  exists 3%nat, (fun i j => match i, j with 1%nat, O => 1 | O, 1%nat => 5 | O, 2%nat => 5 | 2%nat, O => 5 | 1%nat, 2%nat => 5 | _, _ => 0 end),
    (fun _ => 0), None, (Some 14), [(0, 0, 1%nat, 2%nat)], [[1%nat; 2%nat]].
  split; [|split; [|split]].
  - intros [|[|[|i]]] H; try lia; split; cbn; lia.
  - intros s x i j [E|[]]. injection E as <- <- <- <-. lia.
  - vm_compute. reflexivity.
  - intros H. apply Forall_inv in H. destruct H as [_ H]. cbn in H. lia.
Qed.
Print Assumptions C25_asymmetric_refuted.

(** ** C26 *)

(** An interrupt at any point but the one between "extend" and "clear" reports a complete,
    feasible solution; at that point too no customer is lost and every route is feasible. *)
Theorem C26_interrupt_partial :
  forall ceps seps N D d C L minimize_K savings,
    (2 <= N)%nat -> symmetric D -> served_alone N D d C L ceps seps -> valid_pairs N savings ->
    exists pts, ps_points ceps seps N D d C L minimize_K savings = Some pts /\
      forall p, In p pts ->
        (fst p <> Extended ->
         exists rs, interrupted_sol p = Some (encode rs) /\ covers N rs /\ Forall (fun r => r <> []) rs /\
           Forall (feasible D d C L ceps seps) rs /\
           (minimize_K = false -> routes_cost D rs <= routes_cost D (map (fun i => [i]) (seq 1 (N - 1))))) /\
        (exists rs, interrupted_sol p = Some (encode rs) /\
           (forall c, (1 <= c < N)%nat -> In c (concat rs)) /\ Forall (feasible D d C L ceps seps) rs).
Proof. exact interrupted_ok. Qed.
Print Assumptions C26_interrupt_partial.

(** At that point customers are served twice. *)
Theorem C26_duplicate_window_refuted :
  exists N D d C L savings pts p rs,
    symmetric D /\ served_alone N D d C L 0 0 /\ valid_pairs N savings /\
    ps_points 0 0 N D d C L false savings = Some pts /\ In p pts /\
    interrupted_sol p = Some (encode rs) /\ ~ covers N rs.
Proof.
  exists 6%nat, ex_sD, (fun _ => 1), (Some 3), (Some 40), (clarke_wright_savings 6 ex_sD).
  eexists. eexists. exists [[1]; [2]; [3]; [4; 5]; [5]]%nat.
  split; [exact ex_sD_symmetric|]. split; [exact ex_served_alone|]. split; [apply clarke_wright_valid|].
  split; [vm_compute; reflexivity|]. split; [do 8 right; left; reflexivity|].
  split; [vm_compute; reflexivity|].
  intros H. apply Permutation_length in H. discriminate H.
Qed.
Print Assumptions C26_duplicate_window_refuted.

(** ** C42 *)

(** Savings list with all pairs; without minimize_K, losing pairs come last. *)
Theorem C42_no_merge_left_any_list :
  forall ceps seps N D d C L minimize_K savings,
    (2 <= N)%nat -> symmetric D -> served_alone N D d C L ceps seps -> valid_pairs N savings ->
    triangle D -> (forall n, 0 <= d n) -> complete_list N savings ->
    (minimize_K = false -> losing_last D savings) ->
    exists rs, parallel_savings_init ceps seps N D d C L minimize_K savings = Some (Some (encode rs)) /\
      forall r1 r2 rest i j q, Permutation rs (r1 :: r2 :: rest) -> joined r1 r2 i j q ->
        ~ feasible D d C L ceps seps q \/ (minimize_K = false /\ D i 0%nat + D 0%nat j < D i j).
Proof. exact parallel_maximal. Qed.
Print Assumptions C42_no_merge_left_any_list.

(** The Clarke and Wright savings. *)
Theorem C42_no_merge_left :
  forall ceps seps N D d C L minimize_K,
    (2 <= N)%nat -> symmetric D -> served_alone N D d C L ceps seps ->
    triangle D -> (forall n, 0 <= d n) ->
    exists rs, parallel_savings_init ceps seps N D d C L minimize_K (clarke_wright_savings N D) = Some (Some (encode rs)) /\
      forall r1 r2 rest i j q, Permutation rs (r1 :: r2 :: rest) -> joined r1 r2 i j q ->
        ~ feasible D d C L ceps seps q \/ (minimize_K = false /\ D i 0%nat + D 0%nat j < D i j).
Proof. exact clarke_wright_maximal. Qed.
Print Assumptions C42_no_merge_left.

(** The two routes of the example of C25 cannot be joined: the capacity is exceeded. *)
Example C42_triangle : triangle ex_sD.
Proof. intros [|i] [|j] [|k]; unfold ex_sD; lia. Qed.
Example C42_run : exists q, joined [1; 2]%nat [3; 4; 5]%nat 2 3 q /\ ~ feasible ex_sD (fun _ => 1) (Some 3) (Some 40) 0 0 q.
Proof.
  exists [1; 2; 3; 4; 5]%nat. split.
  - exists [1; 2]%nat, [3; 4; 5]%nat. repeat split; try discriminate; now left.
  - intros [H _]. cbn in H. lia.
Qed.
