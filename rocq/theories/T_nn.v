(** * Properties C29 and C47: nearest neighbour construction *)
From Verif Require Import Spec Spec_inter Spec_savings PyBase M_util M_psavings M_nn P_nn2 P_nn3 Spec_nn.

(** What each mode begins a route with: the modes called "farthest" and "closest" are swapped. *)
Definition begins_with (D : matrix) (m : nn_mode) : (nat -> Prop) -> nat -> Prop :=
  match m with NNfarthest => depot_closest D | NNclosest => depot_farthest D | NNnearest => closest_pair D end.

(** Points 0, 1, 2, ... on a line, the depot at 0. *)
Definition line_D : matrix := fun i j => Z.abs (Z.of_nat i - Z.of_nat j).
Example line_self_first : forall N, self_first N line_D.
Proof. intros N i j Hi Hj Hne. left. unfold line_D. lia. Qed.
Example line_alone : served_alone 6 line_D (fun _ => 1) (Some 2) (Some 12) 0 0.
Proof. intros i Hi. split; cbn; unfold line_D; lia. Qed.

(** ** C29 *)

(** The run follows the rule of Spec_nn until nobody is left; the modes are as documented but for
    the swapped names.  With mode "nearest" the run may end in a TypeError instead. *)
Theorem C29_follows_the_rule_partial :
  forall ceps seps N D d C L K m ends_only forbidden,
    self_first N D -> (1 <= N)%nat -> (1 <= K)%nat ->
    exists st pts fuel0 out,
      nn_steps N D d C L ceps seps forbidden ends_only (begins_with D m) (nn_start K) st /\ (forall j, ~ free N forbidden st j) /\
      (forall fuel, (fuel0 <= fuel)%nat -> nearest_neighbor_init ceps seps N D d C L K m ends_only forbidden fuel = Some (out, pts)) /\
      (out = NNok (match filter nonempty (nn_routes st) with [] => None | rs => Some (encode rs) end) \/
       (out = NNraise EType /\ m = NNnearest /\ exists p, nth_error (nn_open st) (nn_turn st) = Some ([], p))).
Proof. exact nn_rule_followed. Qed.
Print Assumptions C29_follows_the_rule_partial.

(** Every customer that is not forbidden is served once; routes with several customers are feasible. *)
Theorem C29_serves_everyone_partial :
  forall N D d C L ceps seps forbidden ends_only m, (1 <= N)%nat -> forall K,
    self_first N D -> (1 <= K)%nat ->
    (m = NNnearest -> K = 1%nat /\ exists j, (1 <= j < N)%nat /\ ~ In j forbidden) ->
    exists rs pts fuel0,
      Permutation (concat rs) (filter (fun j => negb (existsb (Nat.eqb j) forbidden)) (seq 1 (N - 1))) /\ Forall (fun r => r <> []) rs /\
      (forall r, In r rs -> (2 <= length r)%nat -> feasible D d C L ceps seps r) /\
      forall fuel, (fuel0 <= fuel)%nat ->
        nearest_neighbor_init ceps seps N D d C L K m ends_only forbidden fuel
        = Some (NNok (match rs with [] => None | _ => Some (encode rs) end), pts).
Proof. exact nn_complete. Qed.
Print Assumptions C29_serves_everyone_partial.

Example C29_run : exists pts,
  nearest_neighbor_init 0 0 6 line_D (fun _ => 1) (Some 2) (Some 12) 2 NNfarthest false [4%nat] 100
  = Some (NNok (Some (encode [[1; 2]; [3; 5]]%nat)), pts).
Proof. eexists. vm_compute. reflexivity. Qed.

Theorem C29_complete_and_feasible_partial :
  forall ceps seps N D d C L K m ends_only,
    self_first N D -> served_alone N D d C L ceps seps -> (2 <= N)%nat -> (1 <= K)%nat -> (m = NNnearest -> K = 1%nat) ->
    exists rs pts fuel0, serves N D d C L ceps seps rs /\
      forall fuel, (fuel0 <= fuel)%nat ->
        nearest_neighbor_init ceps seps N D d C L K m ends_only [] fuel = Some (NNok (Some (encode rs)), pts).
Proof. exact nn_serves. Qed.
Print Assumptions C29_complete_and_feasible_partial.

Example C29_run2 : exists pts,
  nearest_neighbor_init 0 0 6 line_D (fun _ => 1) (Some 2) (Some 12) 1 NNnearest true [] 100
  = Some (NNok (Some (encode [[1; 2]; [3; 4]; [5]]%nat)), pts).
Proof. eexists. vm_compute. reflexivity. Qed.

(** The neighbour lists are double ended queues, whatever is done with them. *)
Theorem C29_neighbour_queue :
  forall ops l, pq_run ops (pq_new l) = deque_run ops l.
Proof. exact pq_new_deque. Qed.
Print Assumptions C29_neighbour_queue.

Example C29_queue : pq_run [PopLeft; PeekRight; PopRight; Size; PopLeft; PopLeft; Item 0] (pq_new [(1%nat, 5); (2%nat, 6); (3%nat, 7)])
  = [Answer (Some (1%nat, 5)); Answer (Some (3%nat, 7)); Answer (Some (3%nat, 7)); Number 1; Answer (Some (2%nat, 6)); Answer None; Answer None].
Proof. reflexivity. Qed.

(** Two customers in the same place: the list of neighbours of the second one begins with the
    first one, not with itself, and a customer is lost. *)
Definition coloc_D : matrix := fun i j => if Bool.eqb (Nat.eqb i 0) (Nat.eqb j 0) then 0 else 1.
Theorem C29_colocated_refuted :
  exists D, symmetric D /\ served_alone 3 D (fun _ => 1) None None 0 0 /\ exists pts,
    nearest_neighbor_init 0 0 3 D (fun _ => 1) None None 1 NNclosest false [] 10 = Some (NNok (Some (encode [[2%nat]])), pts) /\
    ~ covers 3 [[2%nat]].
Proof.
  exists coloc_D. split; [|split].
  - intros i j. unfold coloc_D. destruct (Nat.eqb i 0), (Nat.eqb j 0); reflexivity.
  - intros i Hi. split; exact I.
  - eexists. split; [vm_compute; reflexivity|]. intros H. apply Permutation_length in H. discriminate.
Qed.
Print Assumptions C29_colocated_refuted.

(** "farthest" begins with the closest customer and "closest" with the farthest one. *)
Theorem C29_mode_names_refuted :
  exists N D d C, self_first N D /\
    (exists pts s rs, nearest_neighbor_init 0 0 N D d C None 1 NNfarthest false [] 20 = Some (NNok (Some (encode ([s] :: rs))), pts) /\
       exists x, (1 <= x < N)%nat /\ D 0%nat s < D 0%nat x) /\
    (exists pts s rs, nearest_neighbor_init 0 0 N D d C None 1 NNclosest false [] 20 = Some (NNok (Some (encode ([s] :: rs))), pts) /\
       exists x, (1 <= x < N)%nat /\ D 0%nat x < D 0%nat s).
Proof.
  exists 3%nat, line_D, (fun _ => 1), (Some 1). split; [apply line_self_first|]. split.
  - eexists _, 1%nat, [[2%nat]]. split; [vm_compute; reflexivity|]. exists 2%nat. split; [lia|reflexivity].
  - eexists _, 2%nat, [[1%nat]]. split; [vm_compute; reflexivity|]. exists 1%nat. split; [lia|reflexivity].
Qed.
Print Assumptions C29_mode_names_refuted.

(** Mode "nearest" with two emerging routes and two customers that go into one: TypeError. *)
Theorem C29_nearest_type_error_refuted :
  exists N D d C, self_first N D /\ served_alone N D d C None 0 0 /\
    exists pts, nearest_neighbor_init 0 0 N D d C None 2 NNnearest false [] 20 = Some (NNraise EType, pts).
Proof.
  exists 3%nat, line_D, (fun _ => 1), (Some 5). split; [apply line_self_first|]. split.
  - intros i Hi. split; [cbn; lia|exact I].
  - eexists. vm_compute. reflexivity.
Qed.
Print Assumptions C29_nearest_type_error_refuted.

(** ** C47 *)

(** Except between storing a finished route and releasing it, an interrupt reports a complete
    solution; in that window no customer is lost. *)
Theorem C47_interrupt_partial :
  forall ceps seps N D d C L K m ends_only forbidden,
    self_first N D -> (1 <= N)%nat -> (1 <= K)%nat ->
    exists out pts fuel0,
      (forall fuel, (fuel0 <= fuel)%nat -> nearest_neighbor_init ceps seps N D d C L K m ends_only forbidden fuel = Some (out, pts)) /\
      forall p, In p pts ->
        (fst p <> N_stored ->
         exists rs, nn_interrupted N p = encode rs /\ covers N rs /\ Forall (fun r => r <> []) rs /\
           (served_alone N D d C L ceps seps -> Forall (feasible D d C L ceps seps) rs)) /\
        (exists rs, nn_interrupted N p = encode rs /\ (forall c, (1 <= c < N)%nat <-> In c (concat rs)) /\ Forall (fun r => r <> []) rs /\
           (served_alone N D d C L ceps seps -> Forall (feasible D d C L ceps seps) rs)).
Proof. exact nn_interrupt. Qed.
Print Assumptions C47_interrupt_partial.

Example C47_points : exists out pts,
  nearest_neighbor_init 0 0 4 line_D (fun _ => 1) (Some 2) None 1 NNfarthest false [] 20 = Some (out, pts) /\
  map (fun p => (fst p, nn_interrupted 4 p)) (firstn 6 pts) =
  [(N_start, encode [[1]; [2]; [3]]); (N_deque, encode [[1]; [2]; [3]]); (N_seeded, encode [[1]; [2]; [3]]); (N_start, encode [[1]; [2]; [3]]);
   (N_added, encode [[1; 2]; [3]]); (N_start, encode [[1; 2]; [3]])]%nat.
Proof. eexists _, _. split; [vm_compute; reflexivity|]. vm_compute. reflexivity. Qed.

Theorem C47_interrupt_window_refuted :
  exists N D d C, self_first N D /\ served_alone N D d C None 0 0 /\
    exists out pts p, nearest_neighbor_init 0 0 N D d C None 1 NNfarthest false [] 20 = Some (out, pts) /\ In p pts /\
      exists rs, nn_interrupted N p = encode rs /\ Forall (fun r => r <> []) rs /\ ~ covers N rs.
Proof.
  exists 3%nat, line_D, (fun _ => 1), (Some 1). split; [apply line_self_first|]. split.
  - intros i Hi. split; [cbn; lia|exact I].
  - eexists _, _, (N_stored, ([0; 1; 0]%nat, [mkslot [1%nat] 1 1 0])). split; [vm_compute; reflexivity|]. split.
    + cbn. tauto.
    + exists [[1]; [1]; [2]]%nat. split; [reflexivity|]. split; [repeat (apply Forall_cons; [discriminate|]); apply Forall_nil|].
      intros H. apply Permutation_length in H. discriminate.
Qed.
Print Assumptions C47_interrupt_window_refuted.
