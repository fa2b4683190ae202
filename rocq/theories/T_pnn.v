(** * Property C108: nearest neighbour algorithms with an automatic number of routes *)
From Coq Require Import Lia.
From Verif Require Import Spec Spec_inter Spec_savings Spec_nn PyBase M_util M_psavings M_nn M_pnn Spec_pnn P_nn3 P_pnn.

(** The best of the runs with 1, 2, ... emerging routes, up to the number of routes that the first
    run needed; of several that are equally good the first one. *)
Theorem C108_best_of_all_tries :
  forall ceps seps N D d C L, (2 <= N)%nat -> self_first N D -> served_alone N D d C L ceps seps ->
    exists rs1, builds N D d C L ceps seps 1 rs1 /\ serves N D d C L ceps seps rs1 /\
    exists b rs, (1 <= b <= length rs1)%nat /\ builds N D d C L ceps seps b rs /\ serves N D d C L ceps seps rs /\
      comes_to (pnn_call ceps seps N D d C L (fun _ => None) false false) (WReturns (Some (encode rs))) /\
      forall k, (1 <= k <= length rs1)%nat -> exists q, builds N D d C L ceps seps k q /\ serves N D d C L ceps seps q /\
        routes_cost D rs <= routes_cost D q /\ ((k < b)%nat -> routes_cost D rs < routes_cost D q).
Proof. exact pnn_best. Qed.
Print Assumptions C108_best_of_all_tries.

(** Customers on both sides of the depot: two routes that grow at the same time are better. *)
Definition sides_D : matrix := fun i j => Z.abs (nth i [0; 1; -2; 3; -5; 8; -11] 0 - nth j [0; 1; -2; 3; -5; 8; -11] 0).
Example sides_self_first : self_first 7 sides_D.
Proof.
  intros i j Hi Hj Hne. unfold sides_D.
  assert (H : forall n, (n < 7)%nat -> In n [0; 1; 2; 3; 4; 5; 6]%nat) by (intros n Hn; do 7 (destruct n as [|n]; [cbn; tauto|]); lia).
  apply H in Hi. apply H in Hj. cbn in Hi, Hj. intuition subst; try lia; cbn; lia.
Qed.
Example sides_alone : served_alone 7 sides_D (fun _ => 1) (Some 3) None 0 0.
Proof. intros i Hi. split; [cbn; lia|exact I]. Qed.
Example C108_case :
  (exists pts, nearest_neighbor_init 0 0 7 sides_D (fun _ => 1) (Some 3) None 1 NNfarthest false [] 200
     = Some (NNok (Some (encode [[1; 3; 2]; [4; 6; 5]]%nat)), pts)) /\
  pnn_call 0 0 7 sides_D (fun _ => 1) (Some 3) None (fun _ => None) false false 200 = Some (WReturns (Some (encode [[1; 3; 5]; [2; 4; 6]]%nat))).
Proof. split; [eexists|]; vm_compute; reflexivity. Qed.

(** A single run is the sequential one; fewest vehicles is not supported. *)
Theorem C108_single_run :
  forall ceps seps N D d C L, (2 <= N)%nat -> self_first N D -> served_alone N D d C L ceps seps ->
    forall minimize_K stops, stops 1%nat = None ->
    exists rs1, builds N D d C L ceps seps 1 rs1 /\ serves N D d C L ceps seps rs1 /\
      comes_to (pnn_call ceps seps N D d C L stops true minimize_K) (if minimize_K then WNotImplemented else WReturns (Some (encode rs1))) /\
      comes_to (snn_call ceps seps N D d C L 1 stops minimize_K) (if minimize_K then WNotImplemented else WReturns (Some (encode rs1))).
Proof. exact pnn_single. Qed.
Print Assumptions C108_single_run.

(** An interrupt hands over what the interrupted run has: complete but for the window of C47. *)
Theorem C108_interrupt_partial :
  forall ceps seps N D d C L, (2 <= N)%nat -> self_first N D -> served_alone N D d C L ceps seps ->
    forall stops single k i, stops k = Some i -> (1 <= k)%nat -> (forall t, (1 <= t < k)%nat -> stops t = None) -> (single = true -> k = 1%nat) ->
    exists rs1, builds N D d C L ceps seps 1 rs1 /\ ((k <= length rs1)%nat ->
    exists out pts fuel0, (forall fuel, (fuel0 <= fuel)%nat -> nearest_neighbor_init ceps seps N D d C L k NNfarthest false [] fuel = Some (out, pts)) /\
    forall p, nth_error pts i = Some p ->
      comes_to (pnn_call ceps seps N D d C L stops single false) (WInterrupted (nn_interrupted N p)) /\
      (fst p <> N_stored -> exists rs, nn_interrupted N p = encode rs /\ serves N D d C L ceps seps rs) /\
      (exists rs, nn_interrupted N p = encode rs /\ (forall c, (1 <= c < N)%nat <-> In c (concat rs)) /\
         Forall (fun r => r <> []) rs /\ Forall (feasible D d C L ceps seps) rs)).
Proof. exact pnn_interrupted. Qed.
Print Assumptions C108_interrupt_partial.

Example C108_interrupt_case :
  pnn_call 0 0 7 sides_D (fun _ => 1) (Some 3) None (fun k => if Nat.eqb k 2 then Some 10%nat else None) false false 200
  = Some (WInterrupted (encode [[1; 3]; [2; 4]; [5]; [6]]%nat)).
Proof. vm_compute. reflexivity. Qed.

(** The result of the runs that have finished is lost: what is handed over is worse. *)
Theorem C108_better_result_lost_refuted :
  exists N D d C rs1 rs stops, self_first N D /\ served_alone N D d C None 0 0 /\
    builds N D d C None 0 0 1 rs1 /\ stops 1%nat = None /\
    comes_to (pnn_call 0 0 N D d C None stops false false) (WInterrupted (encode rs)) /\
    routes_cost D rs1 < routes_cost D rs.
Proof.
  exists 7%nat, sides_D, (fun _ => 1), (Some 3), [[1; 3; 2]; [4; 6; 5]]%nat, [[1]; [2]; [3]; [4]; [5]; [6]]%nat,
    (fun k => if Nat.eqb k 2 then Some 0%nat else None).
  split; [exact sides_self_first|]. split; [exact sides_alone|].
  split; [eapply builds_by with (n := 200%nat); vm_compute; reflexivity|]. split; [reflexivity|].
  split; [apply comes_by with (n := 200%nat); vm_compute; reflexivity|]. vm_compute. reflexivity.
Qed.
Print Assumptions C108_better_result_lost_refuted.
