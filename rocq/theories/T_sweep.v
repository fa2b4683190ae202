(** * Theorems about the sweep heuristic *)
From Verif Require Import Spec Spec_rfcs Spec_inter Spec_savings PyBase M_util M_psavings M_sweep Spec_sweep P_sweep5 P_sweep6.
From Coq Require Import Lia List Permutation.
Import ListNotations.
Local Open Scope Z_scope.

(** ** C31: everyone is served, within the limits, by the best of the sweeps made *)
Theorem C31_sweep : forall ceps seps N D d C L f order,
  solver N D f -> served_alone N D d C L ceps seps -> Permutation order (seq 1 (N - 1)) ->
  (forall i, (1 <= i < N)%nat -> 0 <= d i) ->
  forall minimize_K rho dir s, (2 <= N)%nat -> seed_ok N rho s ->
  exists fuel0 rs,
    (forall fuel, (fuel0 <= fuel)%nat ->
       sweep_init ceps seps D d C L minimize_K f order N rho dir s fuel = Some (SwReturns (Some (encode rs)))) /\
    serves N D d C L ceps seps rs /\
    (exists ccw p, goes dir ccw /\ starts_at N order rho s p /\ sweep_gives ceps seps D d C L f order ccw p rs) /\
    forall ccw p, goes dir ccw -> starts_at N order rho s p ->
      exists rs', sweep_gives ceps seps D d C L f order ccw p rs' /\ serves N D d C L ceps seps rs' /\
        not_beaten minimize_K D rs rs'.
Proof. exact init_ok. Qed.
Print Assumptions C31_sweep.

(** The routing used when none is given satisfies the hypothesis. *)
Theorem C31_default_routing : forall N D, solver N D (in_sweep_order D).
Proof. exact in_sweep_order_solver. Qed.
Print Assumptions C31_default_routing.

(** Four customers, of which the first fills a vehicle and the last is far away. *)
Definition four : list nat := [1;2;3;4]%nat.
Example C31_case : served_alone 5 spokes one_heavy (Some 7) (Some 50) 0 0 /\ Permutation four (seq 1 (5 - 1)) /\
  (forall i, 0 <= one_heavy i) /\ (forall i j, spokes i j = spokes j i) /\
  sweep_init 0 0 spokes one_heavy (Some 7) (Some 50) false (in_sweep_order spokes) four 5 [] BothWays BestAlternative 60 =
    Some (SwReturns (Some [0;1;0;2;4;0;3;0]%nat)) /\
  sweep_init 0 0 spokes one_heavy (Some 9) None false (in_sweep_order spokes) four 5 [5;5;5;20] CW ClosestToDepot 60 =
    Some (SwReturns (Some [0;1;4;3;0;2;0]%nat)).
Proof.
  split; [|split; [apply Permutation_refl|split; [|split; [|split; vm_compute; reflexivity]]]].
  - intros i Hi. destruct i as [|[|[|[|[|]]]]]; try lia; split; vm_compute; intros _; discriminate.
  - intros i. unfold one_heavy. destruct (Nat.eqb i 1); lia.
  - intros i j. unfold spokes. rewrite (PeanoNat.Nat.eqb_sym i j). destruct (Nat.eqb j i); lia.
Qed.

(** The length limit: when a customer cannot be served alone the sweep never ends, although the capacity
    limit is treated by giving such a customer a route of its own. *)
Theorem C31_unservable_refuted : exists D d L order,
  Permutation order (seq 1 (2 - 1)) /\ (forall i, 0 <= d i) /\
  forall fuel, do_one_sweep 0 0 D d None L (in_sweep_order D) order true false 0 fuel = None.
Proof. exists ten_apart, (fun _ => 1), (Some 10), [1%nat]. split; [apply Permutation_refl|]. split; [lia|exact endless]. Qed.
Print Assumptions C31_unservable_refuted.

(** A seed that is a multiple of N is the depot, which is not in the sweep: IndexError. *)
Theorem C31_seed_depot_raises : forall ceps seps N D d C L minimize_K f order rho dir n,
  (forall x, In x order -> (1 <= x)%nat) -> Nat.modulo n N = 0%nat ->
  forall fuel, sweep_init ceps seps D d C L minimize_K f order N rho dir (SeedNode n) fuel = Some SwRaises.
Proof. exact seed_depot. Qed.
Print Assumptions C31_seed_depot_raises.
Example C31_seed_depot_case : Nat.modulo 10 5 = 0%nat /\
  sweep_init 0 0 spokes one_heavy (Some 7) (Some 50) false (in_sweep_order spokes) four 5 [] CCW (SeedNode 10) 60 = Some SwRaises /\
  sweep_init 0 0 spokes one_heavy (Some 9) None false (in_sweep_order spokes) four 5 [] CCW (SeedNode 13) 60 =
    Some (SwReturns (Some [0;3;4;1;0;2;0]%nat)).
Proof. repeat split; vm_compute; reflexivity. Qed.

(** ** C54: routes are sectors *)

(** Without a length limit the routes are consecutive sectors of the circle, routed by the routing
    algorithm, and a sector ends where the next customer does not fit. *)
Theorem C54_sectors : forall ceps seps N D d C f order,
  solver N D f -> served_alone N D d C None ceps seps -> Permutation order (seq 1 (N - 1)) ->
  (forall i, (1 <= i < N)%nat -> 0 <= d i) ->
  forall ccw start, (start < N - 1)%nat ->
  exists arcs final rs r, circle ccw order start = concat arcs ++ final /\ final <> [] /\
    cut_by_rule (fits ceps seps d C None f) final arcs /\ within C ceps (demand d final) /\
    sweep_gives ceps seps D d C None f order ccw start (rs ++ [r]) /\
    Forall2 (tour_of f) arcs rs /\ tour_of f final r.
Proof. exact sectors_ok. Qed.
Print Assumptions C54_sectors.

(** With a length limit this holds up to the last sector, which is cut into several routes unless it fits.
    Missing: that these are sectors, see below. *)
Theorem C54_sectors_partial : forall ceps seps N D d C L f order,
  solver N D f -> served_alone N D d C L ceps seps -> Permutation order (seq 1 (N - 1)) ->
  (forall i, (1 <= i < N)%nat -> 0 <= d i) ->
  forall ccw start, (start < N - 1)%nat ->
  exists arcs final rs1 rs2, circle ccw order start = concat arcs ++ final /\ final <> [] /\
    cut_by_rule (fits ceps seps d C L f) final arcs /\ within C ceps (demand d final) /\
    sweep_gives ceps seps D d C L f order ccw start (rs1 ++ rs2) /\
    Forall2 (tour_of f) arcs rs1 /\ Permutation (concat rs2) final /\
    (within L seps (snd (f (0%nat :: final))) -> exists r, rs2 = [r] /\ tour_of f final r).
Proof. exact rule_ok. Qed.
Print Assumptions C54_sectors_partial.

Example C54_case :
  circle true four 2 = [3;4;1;2]%nat /\ circle false four 2 = [3;2;1;4]%nat /\
  cut_by_rule (fits 0 0 one_heavy (Some 7) (Some 50) (in_sweep_order spokes)) [2;3;4]%nat [[1]]%nat.
Proof.
  split; [reflexivity|]. split; [reflexivity|]. apply cut_cons with 2%nat [3;4]%nat; [discriminate| |reflexivity| |constructor].
  - split; vm_compute; intros _; discriminate.
  - intros [H _]. vm_compute in H. now apply H.
Qed.

(** The last route is shortened by dropping the customers before the last one, so it is no sector. *)
Theorem C54_last_sector_refuted : exists N D d C L order rs r,
  served_alone N D d C L 0 0 /\ Permutation order (seq 1 (N - 1)) /\ (forall i, 0 <= d i) /\
  (forall i j, D i j = D j i) /\ (forall i j k, D i k <= D i j + D j k) /\
  sweep_gives 0 0 D d C L (in_sweep_order D) order true 0 rs /\ In r rs /\
  forall start before sector after, circle true order start = before ++ sector ++ after -> ~ Permutation sector r.
Proof. exact last_sector. Qed.
Print Assumptions C54_last_sector_refuted.

(** ** C55: an interrupted sweep hands over the best of the sweeps finished *)
Theorem C55_interrupt : forall ceps seps N D d C L f order,
  solver N D f -> served_alone N D d C L ceps seps -> Permutation order (seq 1 (N - 1)) ->
  (forall i, (1 <= i < N)%nat -> 0 <= d i) ->
  forall minimize_K runs k, Forall (fun r : bool * nat => (snd r < N - 1)%nat) runs -> runs <> [] -> (1 <= k)%nat ->
  exists fuel0 rs, (forall fuel, (fuel0 <= fuel)%nat ->
      sweep_interrupted ceps seps D d C L minimize_K f order runs k fuel = Some (Some (Some (encode rs)))) /\
    serves N D d C L ceps seps rs /\
    (exists run, In run (firstn k runs) /\ sweep_gives ceps seps D d C L f order (fst run) (snd run) rs) /\
    forall run, In run (firstn k runs) ->
      exists rs', sweep_gives ceps seps D d C L f order (fst run) (snd run) rs' /\ serves N D d C L ceps seps rs' /\
        not_beaten minimize_K D rs rs'.
Proof. exact prefix_best. Qed.
Print Assumptions C55_interrupt.

(** During the first sweep there is nothing to hand over. *)
Theorem C55_first_sweep_refuted : forall ceps seps D d C L minimize_K f order runs fuel,
  sweep_interrupted ceps seps D d C L minimize_K f order runs 0 fuel = Some (Some None).
Proof. exact nothing_yet. Qed.
Print Assumptions C55_first_sweep_refuted.

Example C55_case :
  sweep_interrupted 0 0 spokes one_heavy (Some 7) (Some 50) false (in_sweep_order spokes) four (sw_runs BothWays [0;1;2]%nat) 4 60 =
    Some (Some (Some [0;1;0;2;4;0;3;0]%nat)).
Proof. vm_compute. reflexivity. Qed.
