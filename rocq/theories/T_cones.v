(** C114: seed points in cones around the depot, the default of the generalized
    assignment heuristic. *)
From Coq Require Import ZArith QArith List Bool Arith Lia Lqa.
From Verif Require Import M_cones Spec_cones P_cones P_cones2 P_cones3.
Import ListNotations.
Open Scope Q_scope.

(** If no customer weighs more than an equal share of the total, then from
    whichever customer the cones start, there are [K] groups of cones that
    follow each other around the depot, within one turn, each of the weight of
    an equal share (up to the tolerance).  The sectors are those where, going
    around the depot over the cones of the customers, the weight is reached.
    The seed points are one for each group: in the middle of its sector and at
    the distance from the depot where three quarters of a share are reached,
    which is not farther than the farthest customer of the group.  The weights are the demands, or the distances to
    the next customer around the depot when there is no capacity. *)
Theorem C114_equal_cones_partial :
  forall turn eps total w sweep K trial,
    0 < turn -> 0 < eps -> (forall i j, 0 <= w i j) -> (1 <= K)%nat ->
    (trial < length sweep)%nat ->
    within_a_turn turn (map (fun p => fst (fst p)) sweep) ->
    (forall p, In p sweep -> 0 <= snd (fst p)) ->
    total == around w (map snd sweep) ->
    let share := total / inject_Z (Z.of_nat K) in
    (forall i j, w i j <= share) ->
    (inject_Z (Z.of_nat K) + 1) * eps < share ->
    exists gs first,
      sweep_seed_points turn eps total w sweep K trial
        = Cone_seeds (map (fun g => Some (cone_seed turn share g)) gs)
      /\ length gs = K
      /\ (forall g, In g gs -> share - eps < weight g /\ weight g <= share)
      /\ consecutive first (map (fun g => (phi1 g, phi2 g)) gs)
      /\ (forall g, In g gs -> first <= phi1 g /\ phi1 g <= phi2 g /\ phi2 g <= first + turn)
      /\ sectors_right turn w (angle_before turn (map (fun p => fst (fst p)) sweep) trial)
           (skipn trial sweep ++ firstn (trial + 1) sweep)
           (map (fun g => (phi1 g, phi2 g, weight g, nodes g)) gs)
      /\ (forall g, In g gs ->
            snd (cone_seed turn share g) == (phi1 g + phi2 g) / 2 /\
            0 <= fst (cone_seed turn share g) /\
            (exists rho i wt phi, In (rho, i, wt) (nodes g) /\ In (phi, rho, i) sweep
              /\ fst (cone_seed turn share g) <= rho) /\
            (4 * eps <= share -> reached_at ((3 # 4) * share) (nodes g) (fst (cone_seed turn share g)))).
Proof. exact equal_cones_full. Qed.
Print Assumptions C114_equal_cones_partial.

(** The total around the depot is the sum of the demands when these are the
    weights. *)
Theorem C114_total_of_demands :
  forall d l, around (fun i _ => d i) l == Qsum (map d l).
Proof. exact around_demands. Qed.
Print Assumptions C114_total_of_demands.

(** Whatever the weights, there are exactly [K] points (some may be unset). *)
Theorem C114_number_of_points :
  forall turn eps total w sweep K trial,
    0 < eps -> (forall i j, 0 <= w i j) -> (1 <= K)%nat -> (trial < length sweep)%nat ->
    total == around w (map snd sweep) ->
    (inject_Z (Z.of_nat K) + 1) * eps < total / inject_Z (Z.of_nat K) ->
    exists s, sweep_seed_points turn eps total w sweep K trial = Cone_seeds s /\ length s = K.
Proof. exact no_index_error. Qed.
Print Assumptions C114_number_of_points.

(** On the last attempt of the search for seeds, the one that starts after the
    last customer, the cone of the last customer is left out, so that some seed
    point is left at (0, 0), whatever the problem. *)
Theorem C114_last_attempt_refuted :
  forall turn eps total w sweep K,
    0 < eps -> (forall i j, 0 <= w i j) -> (1 <= K)%nat -> sweep <> [] ->
    total == around w (map snd sweep) ->
    eps < total / inject_Z (Z.of_nat K) ->
    inject_Z (Z.of_nat K) * eps < w (last (map snd sweep) 0%nat) (hd 0%nat (map snd sweep)) ->
    exists s, sweep_seed_points turn eps total w sweep K (length sweep) = Cone_seeds s
      /\ length s = K /\ In None s.
Proof. exact last_attempt. Qed.
Print Assumptions C114_last_attempt_refuted.

(** Four customers around the depot, a full turn being 4 *)
Definition ex_sweep : list place := [(-(1), 2, 3%nat); (0, 1, 1%nat); (1, 3, 4%nat); (2, 1, 2%nat)].

Definition ex_even (i j : nat) : Q := 3.

Example C114_meets :
  within_a_turn 4 (map (fun p => fst (fst p)) ex_sweep) /\ (forall p, In p ex_sweep -> 0 <= snd (fst p))
  /\ 12 == around ex_even (map snd ex_sweep)
  /\ (forall i j, ex_even i j <= 12 / inject_Z (Z.of_nat 2))
  /\ (inject_Z (Z.of_nat 2) + 1) * (1 # 100) < 12 / inject_Z (Z.of_nat 2)
  /\ 4 * (1 # 100) <= 12 / inject_Z (Z.of_nat 2)
  /\ (exists a b, sweep_seed_points 4 (1 # 100) 12 ex_even ex_sweep 2 1 = Cone_seeds [Some a; Some b])
  /\ (exists a, sweep_seed_points 4 (1 # 100) 12 ex_even ex_sweep 2 4 = Cone_seeds [Some a; None]).
Proof.
  split; [|split; [|split; [|split; [|split; [|split; [|split]]]]]].
  - split; [cbn; lra|]. intros a b Ha Hb. cbn in Ha, Hb.
    repeat (destruct Ha as [<-|Ha]; [repeat (destruct Hb as [<-|Hb]; [lra|]); contradiction|]). contradiction.
  - intros p Hp. cbn in Hp. repeat (destruct Hp as [<-|Hp]; [cbn; lra|]). contradiction.
  - reflexivity.
  - intros i j. vm_compute. discriminate.
  - reflexivity.
  - vm_compute. discriminate.
  - eexists. eexists. vm_compute. reflexivity.
  - eexists. vm_compute. reflexivity.
Qed.

(** A customer may need more than an equal share: then seed points are left at
    (0, 0), wherever the depot and the customers are.  Here three vehicles are
    to serve demands of 1, 1 and 10. *)
Theorem C114_heavy_customer_refuted :
  exists (d : nat -> Q) sweep K,
    within_a_turn 4 (map (fun p => fst (fst p)) sweep)
    /\ (forall i, 0 <= d i)
    /\ (exists a, sweep_seed_points 4 (1 # 100) (Qsum (map d (map snd sweep))) (fun i _ => d i) sweep K 0
         = Cone_seeds [Some a; None; None]).
Proof.
  exists (fun i => match i with 3%nat => 10 | _ => 1 end).
  exists [(0, 1, 1%nat); (1, 3, 2%nat); (2, 1, 3%nat)], 3%nat.
  split; [|split].
  - split; [cbn; lra|]. intros a b Ha Hb. cbn in Ha, Hb.
    repeat (destruct Ha as [<-|Ha]; [repeat (destruct Hb as [<-|Hb]; [lra|]); contradiction|]). contradiction.
  - intros [|[|[|[|i]]]]; lra.
  - eexists. vm_compute. reflexivity.
Qed.
Print Assumptions C114_heavy_customer_refuted.

(** Without demands the heuristic asks for no seeds (the least number of
    vehicles is the sum of the demands over the capacity), and the function
    divides by zero. *)
Theorem C114_no_demand_refuted :
  forall turn eps total w sweep trial,
    sweep_seed_points turn eps total w sweep 0 trial = Cone_division_by_zero.
Proof. reflexivity. Qed.
Print Assumptions C114_no_demand_refuted.
