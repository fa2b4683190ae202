(** * Properties C27, C28, C43: sequential savings *)
From Verif Require Import Spec Spec_inter Spec_savings PyBase M_util M_psavings M_ssavings P_ssavings2 T_psavings.

Example ex_alone2 : served_alone 4 ex_sD (fun _ => 1) (Some 2) (Some 40) 0 0.
Proof. intros [|i] H; [lia|]. split; cbn; lia. Qed.

(** ** C27 *)

(** Any savings callback, any list of seeds with every customer in it. *)
Theorem C27_sequential_savings :
  forall ceps seps D d C L minimize_K cb,
    symmetric D -> forall N seeds,
    served_alone N D d C L ceps seps -> (forall i, (1 <= i < N)%nat -> In i seeds) ->
    exists rs, sequential_savings_init ceps seps N D d C L minimize_K cb seeds = Some (encode rs) /\
      covers N rs /\ Forall (fun r => r <> []) rs /\ Forall (feasible D d C L ceps seps) rs /\
      (minimize_K = false -> routes_cost D rs <= routes_cost D (map (fun i => [i]) (seq 1 (N - 1)))).
Proof. exact sequential_result. Qed.
Print Assumptions C27_sequential_savings.

Example C27_run :
  sequential_savings_init 0 0 4 ex_sD (fun _ => 1) (Some 2) (Some 40) false (clarke_wright_seq ex_sD) [1; 2; 3]%nat
  = Some (encode [[2; 1]; [3]]%nat).
Proof. vm_compute. reflexivity. Qed.

(** The named seed orders contain every customer, except "savings" for a single customer. *)
Theorem C27_seed_orders :
  forall N D m, (m = Savings -> N <> 2%nat) -> (2 <= N)%nat ->
    exists seeds, seed_order N D m = Some seeds /\ forall i, (1 <= i < N)%nat -> In i seeds.
Proof. exact seed_order_complete. Qed.
Print Assumptions C27_seed_orders.

Example C27_closest : seed_order 4 ex_sD Farthest = Some [3; 2; 1]%nat.
Proof. reflexivity. Qed.

(** One customer and seeds by savings: ValueError. *)
Theorem C27_savings_seeds_one_customer_refuted :
  exists D, symmetric D /\ served_alone 2 D (fun _ => 1) (Some 2) (Some 40) 0 0 /\ seed_order 2 D Savings = None.
Proof.
  exists ex_sD. split; [exact ex_sD_symmetric|]. split; [|reflexivity].
  intros [|i] H; [lia|]. split; cbn; lia.
Qed.
Print Assumptions C27_savings_seeds_one_customer_refuted.

(** ** C28 *)

(** Except in three windows the reported solution is complete and feasible (after closing a
    route it has an empty route); in the windows no customer is lost and every route is feasible. *)
Theorem C28_interrupt_partial :
  forall ceps seps D d C L minimize_K cb,
    symmetric D -> forall N seeds,
    served_alone N D d C L ceps seps -> (forall i, (1 <= i < N)%nat -> In i seeds) ->
    exists sol pts, ss_run ceps seps N D d C L minimize_K cb seeds = Some (sol, pts) /\
      forall p, In p pts ->
        (fst p <> S_seeded -> fst p <> S_appended -> fst p <> S_added ->
         exists rs, ss_interrupted p = encode rs /\ covers N rs /\
           Forall (feasible D d C L ceps seps) (filter nonempty rs) /\
           (fst p <> S_closed -> Forall (fun r => r <> []) rs) /\
           (minimize_K = false ->
            routes_cost D (filter nonempty rs) <= routes_cost D (map (fun i => [i]) (seq 1 (N - 1))))) /\
        (exists rs, ss_interrupted p = encode rs /\ (forall c, (1 <= c < N)%nat <-> In c (concat rs)) /\
           Forall (feasible D d C L ceps seps) (filter nonempty rs)).
Proof. exact sequential_interrupted. Qed.
Print Assumptions C28_interrupt_partial.

(** In each of the three windows a customer is served twice. *)
Theorem C28_duplicate_windows_refuted :
  forall w, In w [S_seeded; S_appended; S_added] ->
  exists N D d C L seeds sol pts p rs,
    symmetric D /\ served_alone N D d C L 0 0 /\ (forall i, (1 <= i < N)%nat -> In i seeds) /\
    ss_run 0 0 N D d C L false (clarke_wright_seq D) seeds = Some (sol, pts) /\ In p pts /\ fst p = w /\
    ss_interrupted p = encode rs /\ ~ covers N rs.
Proof.
  intros w Hw. exists 4%nat, ex_sD, (fun _ => 1), (Some 2), (Some 40), [1; 2; 3]%nat.
  destruct Hw as [<-|[<-|[<-|[]]]]; do 3 eexists.
  - exists [[1]; [1]; [2]; [3]]%nat. split; [exact ex_sD_symmetric|]. split; [exact ex_alone2|].
    split; [intros i Hi; cbn; lia|]. split; [vm_compute; reflexivity|]. split; [do 1 right; left; reflexivity|].
    split; [reflexivity|]. split; [vm_compute; reflexivity|]. intros H. apply Permutation_length in H. discriminate H.
  - exists [[2; 1]; [2]; [3]]%nat. split; [exact ex_sD_symmetric|]. split; [exact ex_alone2|].
    split; [intros i Hi; cbn; lia|]. split; [vm_compute; reflexivity|]. split; [do 3 right; left; reflexivity|].
    split; [reflexivity|]. split; [vm_compute; reflexivity|]. intros H. apply Permutation_length in H. discriminate H.
  - exists [[2; 1]; [2; 1]; []; [3]]%nat. split; [exact ex_sD_symmetric|]. split; [exact ex_alone2|].
    split; [intros i Hi; cbn; lia|]. split; [vm_compute; reflexivity|]. split; [do 6 right; left; reflexivity|].
    split; [reflexivity|]. split; [vm_compute; reflexivity|]. intros H. apply Permutation_length in H. discriminate H.
Qed.
Print Assumptions C28_duplicate_windows_refuted.

(** ** C43 *)
Theorem C43_closed_routes :
  forall ceps seps N D d C L minimize_K seeds,
    symmetric D -> served_alone N D d C L ceps seps -> (forall i, (1 <= i < N)%nat -> In i seeds) ->
    triangle D -> (forall n, 0 <= d n) ->
    exists rs, sequential_savings_init ceps seps N D d C L minimize_K (clarke_wright_seq D) seeds = Some (encode rs) /\
      forall earlier r later i j q, rs = earlier ++ r :: later -> In j (concat later) -> extended r i j q ->
        ~ feasible D d C L ceps seps q \/ (minimize_K = false /\ D i 0%nat + D 0%nat j < D i j).
Proof. exact sequential_closed. Qed.
Print Assumptions C43_closed_routes.

(** In the example of C27 the first route [2; 1] cannot take customer 3. *)
Example C43_run : extended [2; 1]%nat 2 3 [3; 2; 1]%nat /\ ~ feasible ex_sD (fun _ => 1) (Some 2) (Some 40) 0 0 [3; 2; 1]%nat.
Proof.
  split; [split; [discriminate|]; left; split; reflexivity|]. intros [H _]. cbn in H. lia.
Qed.
