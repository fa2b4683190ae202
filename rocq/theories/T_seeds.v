(** C112: seed customers chosen by demand (generalized assignment heuristic
    with "large_demands"). *)
From Coq Require Import ZArith List Bool Lia.
From Verif Require Import Spec PyBase M_seeds Spec_seeds P_seeds.
Import ListNotations.
Open Scope Z_scope.

(** On the first attempt, for up to as many seeds as there are customers, the
    function gives exactly [K] different customers, never the depot; and every
    customer that needs more than half of a vehicle is among them, unless all
    the seeds are such customers. *)
Theorem C112_distinct_customers_partial :
  forall N D d root C K,
    2 * d 0%nat <= C -> (K < N)%nat ->
    exists s, large_demand_seeds N D d root C K 0 = Seeds s
      /\ length s = K /\ NoDup s /\ Forall (customer N) s
      /\ ((forall i, customer N i -> over_half d C i -> In i s) \/
          (forall i, In i s -> over_half d C i)).
Proof. exact first_trial_seeds. Qed.
Print Assumptions C112_distinct_customers_partial.

(** On the first attempt the seeds are chosen to be spread out: if there are
    more than [K] customers over half a vehicle, every seed is, when it is
    chosen, the one of these farthest from the depot and the seeds so far;
    otherwise all of them are seeds, and each further seed has the largest
    product of that distance and its demand among the other customers. *)
Theorem C112_most_remote_partial :
  forall N D d root C K,
    2 * d 0%nat <= C -> (K < N)%nat ->
    exists large picks,
      NoDup large /\ (forall i, In i large <-> customer N i /\ over_half d C i) /\
      ((length large <= K)%nat /\
       large_demand_seeds N D d root C K 0 = Seeds (large ++ picks) /\
       length (large ++ picks) = K /\
       most_remote_first D root d (fun i => customer N i /\ ~ over_half d C i) large picks
       \/
       (K < length large)%nat /\
       large_demand_seeds N D d root C K 0 = Seeds picks /\
       length picks = K /\
       most_remote_first D root (fun _ => 1) (fun i => customer N i /\ over_half d C i) [] picks).
Proof.
  intros N D d root C K Hd HK. set (large := where_ N (fun i => C <? 2 * d i)).
  assert (HL : NoDup large /\ (forall i, In i large <-> customer N i /\ over_half d C i)).
  { split; [apply where_nodup|]. intros i. unfold large. rewrite large_in. unfold customer, over_half.
    destruct i; lia. }
  destruct (first_trial_remote N D d root C K Hd HK) as [[H (p & H1 & H2 & H3)]|[H (p & H1 & H2 & H3)]];
    exists large, p; (split; [apply HL|split; [apply HL|]]); [left|right]; auto.
Qed.
Print Assumptions C112_most_remote_partial.

(** On the second attempt too there are [K] different customers, as long as
    some customer fits a vehicle more than once and has no negative demand. *)
Theorem C112_second_attempt_partial :
  forall N D d root C K j,
    2 * d 0%nat <= C -> (K < N)%nat -> customer N j -> ~ over_half d C j -> d 0%nat <= d j ->
    exists s, large_demand_seeds N D d root C K 1 = Seeds s
      /\ length s = K /\ NoDup s /\ Forall (customer N) s.
Proof. exact second_trial_seeds. Qed.
Print Assumptions C112_second_attempt_partial.

(** Any further attempt of the search for better seeds fails with an
    IndexError, whatever the problem, as long as some customer fits a vehicle
    more than once. *)
Theorem C112_third_attempt_refuted :
  forall N D d root C K trial j,
    2 * d 0%nat <= C -> customer N j -> ~ over_half d C j -> (2 <= trial <= N)%nat ->
    large_demand_seeds N D d root C K trial = Seed_index_error.
Proof. exact later_trials_fail. Qed.
Print Assumptions C112_third_attempt_refuted.

(** A line of customers: node [i] is at position [i] *)
Definition on_line (i j : nat) : Z := Z.abs (Z.of_nat i - Z.of_nat j).

(** Demands of an example: customers 3 and 4 are over half of 10, customer 1 is
    the largest of the others *)
Definition ex_demand (i : nat) : Z := nth i [0; 5; 3; 6; 7; 2] 0.

Example C112_distinct_customers_meets :
  2 * ex_demand 0 <= 10 /\ (4 < 6)%nat
  /\ large_demand_seeds 6 on_line ex_demand Z.sqrt 10 4 0 = Seeds [3; 4; 1; 2]%nat
  /\ large_demand_seeds 6 on_line ex_demand Z.sqrt 10 1 0 = Seeds [4]%nat.
Proof. vm_compute. intuition (try discriminate; lia). Qed.

(** On the second attempt the seed may not be the farthest candidate: of the
    candidates 3, 4 (over half) and 1 (the largest of the others) customer 4 is
    the farthest from the depot, but customer 1 becomes the seed, which is the
    nearest of all. *)
Theorem C112_nearest_instead_of_farthest_refuted :
  exists N D d C K s,
    2 * d 0%nat <= C /\ (K < N)%nat
    /\ large_demand_seeds N D d Z.sqrt C K 1 = Seeds s
    /\ (exists i j, s = [i] /\ customer N i /\ customer N j /\ over_half d C j /\ ~ over_half d C i
          /\ forall k, customer N k -> k <> i -> D 0%nat i < D 0%nat k).
Proof.
  exists 6%nat, on_line, ex_demand, 10, 1%nat, [1%nat].
  split; [vm_compute; discriminate|]. split; [lia|].
  split; [reflexivity|]. exists 1%nat, 4%nat. unfold customer, over_half, on_line.
  repeat split; try lia; try (cbn; lia).
Qed.
Print Assumptions C112_nearest_instead_of_farthest_refuted.

(** On the second attempt the depot itself may become a seed, when every
    customer needs more than half of a vehicle. *)
Theorem C112_depot_as_seed_refuted :
  exists N D d C K s,
    2 * d 0%nat <= C /\ (K < N)%nat
    /\ large_demand_seeds N D d Z.sqrt C K 1 = Seeds s /\ In 0%nat s.
Proof.
  exists 3%nat, on_line, (fun i => match i with O => 0 | _ => 6 end), 10, 1%nat, [0]%nat.
  split; [cbn; lia|]. split; [lia|]. split; [reflexivity|]. cbn. auto.
Qed.
Print Assumptions C112_depot_as_seed_refuted.

(** With more seeds than customers, the same customer is a seed twice, or the
    function fails with a ValueError when every customer needs more than half
    of a vehicle. *)
Theorem C112_too_many_seeds_refuted :
  (exists D d C s, 2 * d 0%nat <= C
    /\ large_demand_seeds 3 D d Z.sqrt C 3 0 = Seeds s /\ ~ NoDup s)
  /\ (exists D d C, 2 * d 0%nat <= C
    /\ large_demand_seeds 3 D d Z.sqrt C 3 0 = Seed_value_error).
Proof.
  split.
  - exists on_line, (fun i => match i with O => 0 | _ => 1 end), 10, [2; 1; 1]%nat.
    split; [cbn; lia|]. split; [reflexivity|].
    intros H. inversion H as [|? ? _ H2]; subst. inversion H2 as [|? ? H3 _]; subst.
    apply H3. cbn. auto.
  - exists on_line, (fun i => match i with O => 0 | _ => 6 end), 10.
    split; [cbn; lia|reflexivity].
Qed.
Print Assumptions C112_too_many_seeds_refuted.

Example C112_later_attempts_meet :
  2 * ex_demand 0 <= 10 /\ customer 6 2 /\ ~ over_half ex_demand 10 2 /\ ex_demand 0 <= ex_demand 2
  /\ large_demand_seeds 6 on_line ex_demand Z.sqrt 10 4 1 = Seeds [3; 4; 1; 2]%nat
  /\ large_demand_seeds 6 on_line ex_demand Z.sqrt 10 4 2 = Seed_index_error.
Proof. unfold customer, over_half. vm_compute. intuition (try discriminate; lia). Qed.
