(** * The petal algorithm: the property theorems *)
From Verif Require Import Spec Spec_rfcs Spec_inter Spec_savings Spec_petal PyBase M_util M_cvrp_ops M_routedata M_inter M_psavings M_ssavings M_sweep P_sweep P_sweep5 M_petal P_petal3 P_petal4 P_petal9 P_petal10 P_petal11.
From Coq Require Import ZifyBool ZifyNat Lia Arith List Permutation.
Import ListNotations.
Local Open Scope Z_scope.

(** ** C68: the solution *)

(** Whatever the settings, once the search ends by itself the solution serves everybody within the limits. *)
Theorem C68_result : forall eps gurobi feas_relax quicksum N D d C L,
  0 <= eps -> symmetric D -> triangle D -> D 0%nat 0%nat = 0 -> (forall n, 0 <= d n) -> d 0%nat = 0 ->
  forall f order, solver N D f -> served_alone N D d C L eps eps -> Permutation order (seq 1 (N - 1)) ->
  honest quicksum N gurobi -> uninterrupted gurobi -> uninterrupted feas_relax -> (2 <= N)%nat ->
  forall K minimize_K relaxe min_iter ratio allow disc v fuel b cnt,
  petal_init eps gurobi feas_relax N D d C L f order K minimize_K relaxe None min_iter ratio allow disc v fuel = Some (PtReturn b, cnt) ->
  exists rs, b = Some (encode rs) /\ serves_all N D d C L eps rs.
Proof.
  intros eps gurobi feas_relax quicksum N D d C L H1 H2 H3 H4 H5 H6 f order H7 H8 H9 H10 H11 H12 H13 K mk re mi ra al di v fuel b cnt H.
  destruct (init_result eps gurobi feas_relax quicksum N D d C L H1 H2 H3 H4 H5 H6 f order H7 H8 H9 H10 H13 K mk re None mi ra al di v fuel b cnt H11 H12 eq_refl H) as (rs & R1 & R2 & _).
  exists rs. auto.
Qed.
Print Assumptions C68_result.

Definition on_blocks (gurobi : scp -> status) (N : nat) (minimize_K relaxe : bool) (required : option nat) (fuel : nat) :=
  petal_init 0 gurobi (brute_relax N) N blocks loads (Some 4) None (in_sweep_order blocks) (seq 1 (N - 1)) None minimize_K relaxe required None (Some (3, 4)) true Auto 2 fuel.

Example blocks_metric : symmetric blocks /\ triangle blocks /\ blocks 0 0 = 0 /\ (forall n, 0 <= loads n) /\ loads 0 = 0.
Proof.
  split; [intros i j; unfold blocks; lia|]. split; [intros i j k; unfold blocks; lia|]. split; [reflexivity|]. split; [|reflexivity].
  intros n. do 5 (destruct n as [|n]; [cbn; lia|]). cbn. lia.
Qed.
Example blocks_alone : forall N, (N <= 5)%nat -> served_alone N blocks loads (Some 4) None 0 0.
Proof. intros N HN i Hi. assert (HC : (i = 1 \/ i = 2 \/ i = 3 \/ i = 4)%nat) by lia. destruct HC as [->|[->|[->| ->]]]; (split; [vm_compute; intros _; discriminate|exact I]). Qed.

Example C68_case : honest chosen 5 (brute 5) /\ uninterrupted (brute 5) /\ uninterrupted (brute_relax 5) /\ solver 5 blocks (in_sweep_order blocks) /\
  served_alone 5 blocks loads (Some 4) None 0 0 /\
  on_blocks (brute 5) 5 false true None 60 = Some (PtReturn (Some [0;1;0;3;2;4;0]%nat), 11%nat) /\
  on_blocks (brute 5) 5 true true None 60 = Some (PtReturn (Some [0;1;0;3;2;4;0]%nat), 11%nat).
Proof.
  split; [apply brute_honest|]. split; [apply brute_uninterrupted|]. split; [apply brute_relax_uninterrupted|]. split; [apply in_sweep_order_solver|].
  split; [apply blocks_alone; lia|]. split; vm_compute; reflexivity.
Qed.

(** With one iteration, which is what the command line's "single" asks for, somebody may be left out: the heavy
    petals 1, 1-2 and 1-3 cannot serve everybody, and no others are looked at. *)
Theorem C68_single_refuted : exists eps gurobi feas_relax quicksum N D d C L f order,
  0 <= eps /\ symmetric D /\ triangle D /\ D 0%nat 0%nat = 0 /\ (forall n, 0 <= d n) /\ d 0%nat = 0 /\
  solver N D f /\ served_alone N D d C L eps eps /\ Permutation order (seq 1 (N - 1)) /\ honest quicksum N gurobi /\
  uninterrupted gurobi /\ uninterrupted feas_relax /\ (2 <= N)%nat /\ exists v b cnt,
  (forall fuel, (60 <= fuel)%nat ->
    petal_init eps gurobi feas_relax N D d C L f order None false false (Some 1%nat) None (Some (3, 4)) true Auto v fuel = Some (PtReturn (Some b), cnt)) /\
  ~ In 3%nat b /\ (3 < N)%nat.
Proof.
  exists 0, (brute 4), (brute_relax 4), chosen, 4%nat, blocks, loads, (Some 4), None, (in_sweep_order blocks), [1;2;3]%nat.
  destruct blocks_metric as (B1 & B2 & B3 & B4 & B5). split; [lia|]. do 5 (split; [assumption|]). split; [apply in_sweep_order_solver|]. split; [apply blocks_alone; lia|].
  split; [apply Permutation_refl|]. split; [apply brute_honest|]. split; [apply brute_uninterrupted|]. split; [apply brute_relax_uninterrupted|]. split; [lia|].
  exists 2, [0;1;2;0]%nat, 6%nat. split; [|split; [cbn; lia|lia]]. intros fuel Hf. replace fuel with (60 + (fuel - 60))%nat by lia. generalize (fuel - 60)%nat. intros m. vm_compute. reflexivity.
Qed.
Print Assumptions C68_single_refuted.

(** ** C69: the search ends *)

(** Without a limit on the number of routes it ends, for every setting and whether the solver is interrupted or not. *)
Theorem C69_ends : forall eps gurobi feas_relax quicksum N D d C L,
  0 <= eps -> symmetric D -> triangle D -> D 0%nat 0%nat = 0 -> (forall n, 0 <= d n) -> d 0%nat = 0 ->
  forall f order, solver N D f -> served_alone N D d C L eps eps -> Permutation order (seq 1 (N - 1)) ->
  honest quicksum N gurobi -> (2 <= N)%nat ->
  forall K relaxe required min_iter ratio allow disc v, ~ limit_set K ->
  exists fuel0 out, forall fuel, (fuel0 <= fuel)%nat ->
    petal_init eps gurobi feas_relax N D d C L f order K false relaxe required min_iter ratio allow disc v fuel = Some out.
Proof.
  intros eps gurobi feas_relax quicksum N D d C L H1 H2 H3 H4 H5 H6 f order H7 H8 H9 H10 H11 K re rq mi ra al di v HK.
  apply (init_ends eps gurobi feas_relax quicksum N D d C L H1 H2 H3 H4 H5 H6 f order H7 H8 H9 H10 H11 K false re rq mi ra al di v); [|reflexivity].
  now apply unset_truthy.
Qed.
Print Assumptions C69_ends.

Example C69_case : ~ limit_set None /\ honest chosen 4 (brute 4) /\ on_blocks (brute 4) 4 false true None 60 = Some (PtReturn (Some [0;1;2;0;3;0]%nat), 6%nat) /\
  on_blocks (brute 4) 4 false true (Some 3%nat) 60 = Some (PtReturn (Some [0;1;0;2;3;0]%nat), 6%nat).
Proof. split; [intros []|]. split; [apply brute_honest|]. split; vm_compute; reflexivity. Qed.

(** With one it may run for ever: one customer, and the only solution is known after one iteration.  From then on the
    limit is loosened and the problem solved again. *)
Theorem C69_ends_refuted : exists eps gurobi feas_relax quicksum N D d C L f order,
  0 <= eps /\ symmetric D /\ triangle D /\ D 0%nat 0%nat = 0 /\ (forall n, 0 <= d n) /\ d 0%nat = 0 /\
  solver N D f /\ served_alone N D d C L eps eps /\ Permutation order (seq 1 (N - 1)) /\ honest quicksum N gurobi /\ (2 <= N)%nat /\
  exists v, forall fuel, petal_init eps gurobi feas_relax N D d C L f order None true true None None (Some (3, 4)) true Auto v fuel = None.
Proof.
  exists 0, (brute 2), (brute_relax 2), chosen, 2%nat, blocks, loads, (Some 4), None, (in_sweep_order blocks), [1]%nat.
  destruct blocks_metric as (B1 & B2 & B3 & B4 & B5). split; [lia|]. do 5 (split; [assumption|]). split; [apply in_sweep_order_solver|]. split; [apply blocks_alone; lia|].
  split; [apply Permutation_refl|]. split; [apply brute_honest|]. split; [lia|]. exists 1. exact never_ends.
Qed.
Print Assumptions C69_ends_refuted.

(** ** C70: the best choice of petals *)

(** If no limit on the number of routes is set and at most 10000 petals are known at the end, no choice of petals that
    a sweep gives is cheaper than the solution; in particular not the one with a route for each customer. *)
Theorem C70_best_choice : forall eps gurobi feas_relax quicksum N D d C L,
  0 <= eps -> symmetric D -> triangle D -> D 0%nat 0%nat = 0 -> (forall n, 0 <= d n) -> d 0%nat = 0 ->
  forall f order, solver N D f -> served_alone N D d C L eps eps -> Permutation order (seq 1 (N - 1)) ->
  honest quicksum N gurobi -> uninterrupted gurobi -> uninterrupted feas_relax -> (2 <= N)%nat ->
  forall K relaxe min_iter ratio allow disc v fuel b cnt, ~ limit_set K ->
  petal_init eps gurobi feas_relax N D d C L f order K false relaxe None min_iter ratio allow disc v fuel = Some (PtReturn b, cnt) ->
  (cnt <= 100 * 100)%nat ->
  exists rs, b = Some (encode rs) /\ serves_all N D d C L eps rs /\
    forall rs', covers N rs' ->
      Forall (fun r => exists s k, swept D d C L eps f order s k /\ fst (f (0%nat :: arc order s k)) = 0%nat :: r ++ [0%nat]) rs' ->
      routes_cost D rs <= routes_cost D rs'.
Proof.
  intros eps gurobi feas_relax quicksum N D d C L H1 H2 H3 H4 H5 H6 f order H7 H8 H9 H10 H11 H12 H13 K re mi ra al di v fuel b cnt HK H Hc.
  destruct (init_result eps gurobi feas_relax quicksum N D d C L H1 H2 H3 H4 H5 H6 f order H7 H8 H9 H10 H13 K false re None mi ra al di v fuel b cnt H11 H12 eq_refl H) as (rs & R1 & R2 & R3).
  exists rs. split; [exact R1|]. split; [exact R2|]. exact (R3 eq_refl (unset_truthy K HK) Hc).
Qed.
Print Assumptions C70_best_choice.

(** In the example the customers 2 and 3 and the customer 1 are swept petals. *)
Example C70_case : swept blocks loads (Some 4) None 0 (in_sweep_order blocks) [1;2;3;4]%nat 1 3 /\ arc [1;2;3;4]%nat 1 3 = [2;3;4]%nat /\
  swept blocks loads (Some 4) None 0 (in_sweep_order blocks) [1;2;3;4]%nat 0 1 /\ covers 5 [[2;3;4];[1]]%nat /\
  routes_cost blocks [[2;3;4];[1]]%nat = 32 /\ routes_cost blocks [[1];[3;2;4]]%nat = 32.
Proof.
  split; [split; [cbn; lia|split; [cbn; lia|]]; intros j Hj; assert (Hc : (j = 1 \/ j = 2 \/ j = 3)%nat) by lia; destruct Hc as [->|[->| ->]]; (split; [vm_compute; intros _; discriminate|exact I])|].
  split; [reflexivity|]. split; [split; [cbn; lia|split; [cbn; lia|]]; intros j Hj; assert (j = 1%nat) as -> by lia; (split; [vm_compute; intros _; discriminate|exact I])|].
  split; [unfold covers; cbn; apply NoDup_Permutation; [repeat constructor; cbn; lia|repeat constructor; cbn; lia|cbn; lia]|]. split; reflexivity.
Qed.

(** ** C71: repairs and relaxations *)

(** Visiting nobody twice any more keeps the limits and the customers, is not dearer, and says truly whether everybody is served. *)
Theorem C71_served_once : forall eps N D d C L, triangle D -> (forall n, 0 <= d n) -> (1 <= N)%nat -> forall rs,
  Forall (@NoDup nat) rs -> (forall x, In x (concat rs) -> (1 <= x < N)%nat) -> Forall (feasible D d C L eps eps) rs ->
  exists rs' ok, remove_multiserved N D (map wrap rs) = (map wrap rs', ok) /\ serves_some N D d C L eps rs' /\ length rs' = length rs /\
    (forall x, In x (concat rs') <-> In x (concat rs)) /\ routes_cost D rs' <= routes_cost D rs /\ (ok = true <-> covers N rs').
Proof.
  intros eps N D d C L H1 H2 HN rs R1 R2 R3. destruct (remove_ok eps N D d C L H1 H2 rs R1 R2 R3) as (rs' & ok & A1 & A2 & A3 & A4 & A5 & A6 & A7).
  exists rs', ok. do 5 (split; [assumption|]). split; [intros Hk; apply A6, Hk|]. intros Hc. apply (A7 HN). intros x Hx. apply A4, (Permutation_in _ (Permutation_sym Hc)), in_seq. lia.
Qed.
Print Assumptions C71_served_once.

Example C71_served_once_case : Forall (@NoDup nat) [[1;2];[2;3]]%nat /\ Forall (feasible blocks loads (Some 4) None 0 0) [[1;2];[2;3]]%nat /\
  remove_multiserved 4 blocks (map wrap [[1;2];[2;3]]%nat) = (map wrap [[1;2];[3]]%nat, true).
Proof.
  split; [repeat constructor; cbn; lia|]. split; [|vm_compute; reflexivity].
  repeat constructor; vm_compute; intros _; discriminate.
Qed.

(** Every relaxed petal is a route within the limits, with its cost and load. *)
Theorem C71_relaxed_petals : forall eps N D d C L, 0 <= eps -> triangle D -> D 0%nat 0%nat = 0 -> (forall n, 0 <= d n) -> d 0%nat = 0 ->
  forall rs, serves_some N D d C L eps rs -> forall discard rd, In rd (relaxations eps D d C L discard (map wrap rs)) ->
  exists q, exact_rd D d C q rd /\ NoDup q /\ (forall x, In x q -> (1 <= x < N)%nat) /\ feasible D d C L eps eps q.
Proof.
  intros eps N D d C L H1 H2 H3 H4 H5 rs Hrs discard rd Hin. pose proof (relaxations_ok eps N D d C L H1 H2 H3 H4 H5 rs Hrs discard) as HF.
  rewrite Forall_forall in HF. exact (HF rd Hin).
Qed.
Print Assumptions C71_relaxed_petals.

(** The customers are 10 from each other and from the depot, but 1 and 2 are 20 apart. *)
Definition tens (i j : nat) : Z := if Nat.eqb i j then 0 else if (Nat.eqb i 1 && Nat.eqb j 2) || (Nat.eqb i 2 && Nat.eqb j 1) then 20 else 10.
Definition ones (i : nat) : Z := match i with O => 0 | _ => 1 end.
Example tens_metric : symmetric tens /\ triangle tens /\ tens 0 0 = 0.
Proof.
  split; [|split; [|reflexivity]].
  - intros i j. unfold tens. rewrite (Nat.eqb_sym i j). destruct (Nat.eqb_spec j i); [reflexivity|]. destruct (Nat.eqb_spec i 1), (Nat.eqb_spec j 2), (Nat.eqb_spec i 2), (Nat.eqb_spec j 1); cbn; lia.
  - intros i j k. unfold tens. destruct (Nat.eqb_spec i j), (Nat.eqb_spec j k), (Nat.eqb_spec i k); try lia;
    destruct (Nat.eqb_spec i 1), (Nat.eqb_spec j 2), (Nat.eqb_spec i 2), (Nat.eqb_spec j 1), (Nat.eqb_spec k 1), (Nat.eqb_spec k 2); cbn; lia.
Qed.
Example C71_relaxed_petals_case : serves_some 4 tens ones (Some 2) None 0 [[1];[2;3]]%nat /\
  relaxations 0 tens ones (Some 2) None None (map wrap [[1];[2;3]]%nat) =
  [mkrd [0;1;2;0]%nat 40 (Some 2); mkrd [0;3;0]%nat 20 (Some 1); mkrd [0;0]%nat 0 (Some 0)].
Proof.
  split; [|vm_compute; reflexivity]. split; [cbn; repeat constructor; cbn; lia|]. split; [intros x Hx; cbn in Hx; lia|].
  repeat constructor; vm_compute; intros _; discriminate.
Qed.

(** "the total effect of all the relocations must be a reduction in the mileage": moving 1 to the route 2-3, which
    discards 3, replaces two routes of total length 50 by two of total length 60. *)
Theorem C71_mileage_refuted : exists N D d C L rs, symmetric D /\ triangle D /\ D 0%nat 0%nat = 0 /\ (forall n, 0 <= d n) /\ d 0%nat = 0 /\
  serves_some N D d C L 0 rs /\ exists rs', covers N rs /\ covers N rs' /\
  filter (fun rd => negb (Nat.eqb (length (rd_route rd)) 2)) (relax_move 0 D d C L None (from_routes (map wrap rs) D d) 0 1 1) =
    map (fun r => mkrd (wrap r) (route_cost D r) (Some (demand d r))) rs' /\ routes_cost D rs < routes_cost D rs'.
Proof.
  exists 4%nat, tens, ones, (Some 2), None, [[1];[2;3]]%nat. destruct tens_metric as (T1 & T2 & T3). do 3 (split; [assumption|]).
  split; [intros [|n]; cbn; lia|]. split; [reflexivity|]. split; [apply C71_relaxed_petals_case|]. exists [[1;2];[3]]%nat.
  split; [apply Permutation_refl|]. split; [apply Permutation_refl|]. split; vm_compute; reflexivity.
Qed.
Print Assumptions C71_mileage_refuted.

(** ** C72: interrupts and limits on the iterations *)

(** What is returned or handed over with the interrupt, if no number of routes is asked for, serves nobody twice and
    keeps the limits, if it is not None. *)
Theorem C72_partial_solution : forall eps gurobi feas_relax quicksum N D d C L,
  0 <= eps -> symmetric D -> triangle D -> D 0%nat 0%nat = 0 -> (forall n, 0 <= d n) -> d 0%nat = 0 ->
  forall f order, solver N D f -> served_alone N D d C L eps eps -> Permutation order (seq 1 (N - 1)) ->
  honest quicksum N gurobi -> (2 <= N)%nat ->
  forall K minimize_K relaxe required min_iter ratio allow disc v fuel sol cnt, ~ limit_set K ->
  (petal_init eps gurobi feas_relax N D d C L f order K minimize_K relaxe required min_iter ratio allow disc v fuel = Some (PtReturn (Some sol), cnt) \/
   petal_init eps gurobi feas_relax N D d C L f order K minimize_K relaxe required min_iter ratio allow disc v fuel = Some (PtInterrupt (Some sol), cnt)) ->
  exists rs, sol = encode rs /\ serves_some N D d C L eps rs.
Proof.
  intros eps gurobi feas_relax quicksum N D d C L H1 H2 H3 H4 H5 H6 f order H7 H8 H9 H10 H11 K mk re rq mi ra al di v fuel sol cnt HK H.
  pose proof (init_any eps gurobi feas_relax quicksum N D d C L H1 H2 H3 H4 H5 H6 f order H7 H8 H9 H10 H11 K mk re rq mi ra al di v fuel) as HA.
  destruct H as [H|H]; (destruct (HA _ cnt (unset_truthy K HK) H) as [X|(rs & X & HS)]; [discriminate|injection X as ->; exists rs; auto]).
Qed.
Print Assumptions C72_partial_solution.

Example C72_case : honest chosen 5 (cut_later 5) /\
  on_blocks (cut_later 5) 5 false true None 60 = Some (PtInterrupt (Some [0;1;0;2;3;4;0]%nat), 10%nat) /\
  on_blocks (brute 4) 4 false false (Some 1%nat) 60 = Some (PtReturn (Some [0;1;2;0]%nat), 6%nat).
Proof. split; [apply cut_later_honest|]. split; vm_compute; reflexivity. Qed.

(** When a number of routes is asked for, given or as small as possible, no interrupt is lost: what is returned
    normally is what another solver leads to that is never interrupted where this one is, and otherwise
    answers the same. *)
Theorem C72_passed_on : forall eps gurobi gurobi' feas_relax feas_relax',
  same_but_interrupts gurobi gurobi' -> same_but_interrupts feas_relax feas_relax' ->
  forall N D d C L f order K minimize_K relaxe required min_iter ratio allow disc v fuel b cnt,
  limit_set K \/ minimize_K = true -> (forall k, K = Some k -> 0 <= k) -> 0 < v ->
  petal_init eps gurobi feas_relax N D d C L f order K minimize_K relaxe required min_iter ratio allow disc v fuel = Some (PtReturn b, cnt) ->
  petal_init eps gurobi' feas_relax' N D d C L f order K minimize_K relaxe required min_iter ratio allow disc v fuel = Some (PtReturn b, cnt).
Proof.
  intros eps g g' r r' Hg Hr N D d C L f order K mk re rq mi ra al di v fuel b cnt H1 H2 H3 H.
  destruct (init_same eps g g' r r' Hg Hr N D d C L f order K mk re rq mi ra al di v fuel H1 H2 H3) as [(b' & c & X)|X]; [rewrite H in X; discriminate|rewrite X; exact H].
Qed.
Print Assumptions C72_passed_on.

Definition one_route (gurobi : scp -> status) :=
  petal_init 0 gurobi (brute_relax 4) 4 blocks loads (Some 10) None (in_sweep_order blocks) [1;2;3]%nat (Some 1) true true None None (Some (3, 4)) true Auto 1 60.
Example C72_passed_on_case : same_but_interrupts (cut_all 4 9) (brute 4) /\ same_but_interrupts (cut_all 4 5) (brute 4) /\
  one_route (cut_all 4 9) = Some (PtInterrupt (Some [0;1;2;3;0]%nat), 9%nat) /\
  one_route (cut_all 4 3) = Some (PtInterrupt None, 9%nat) /\
  one_route (cut_all 4 5) = Some (PtReturn (Some [0;1;2;3;0]%nat), 9%nat) /\
  one_route (brute 4) = Some (PtReturn (Some [0;1;2;3;0]%nat), 9%nat).
Proof.
  assert (H : forall n, same_but_interrupts (cut_all 4 n) (brute 4)) by (intros n p; unfold cut_all; destruct (Nat.eqb _ n); congruence).
  split; [apply H|]. split; [apply H|]. repeat split; vm_compute; reflexivity.
Qed.

(** The customers are 5 from the depot and 9 from each other. *)
Definition hub (i j : nat) : Z := if Nat.eqb i j then 0 else if Nat.eqb i 0 || Nat.eqb j 0 then 5 else 9.
Definition threes (i : nat) : Z := match i with O => 0 | _ => 3 end.

(** An interrupt while all the petals are looked at is not passed on: the caller gets None as if the algorithm had
    ended, although there is a solution. *)
Theorem C72_interrupt_lost_refuted : exists eps gurobi feas_relax quicksum N D d C L f order,
  0 <= eps /\ symmetric D /\ triangle D /\ D 0%nat 0%nat = 0 /\ (forall n, 0 <= d n) /\ d 0%nat = 0 /\
  solver N D f /\ served_alone N D d C L eps eps /\ Permutation order (seq 1 (N - 1)) /\ honest quicksum N gurobi /\ (2 <= N)%nat /\
  (exists p, gurobi p = Interrupted) /\ exists v cnt, forall fuel, (30 <= fuel)%nat ->
  petal_init eps gurobi feas_relax N D d C L f order None false true None None (Some (3, 4)) true Auto v fuel = Some (PtReturn None, cnt) /\
  petal_init eps (brute N) feas_relax N D d C L f order None false true None None (Some (3, 4)) true Auto v fuel = Some (PtReturn (Some [0;1;0;2;0;3;0]%nat), cnt).
Proof.
  exists 0, (cut_all 4 3), (brute_relax 4), chosen, 4%nat, hub, threes, (Some 5), None, (in_sweep_order hub), [1;2;3]%nat.
  split; [lia|]. split. { intros i j. unfold hub. rewrite (Nat.eqb_sym i j), (orb_comm (Nat.eqb i 0)). reflexivity. }
  split. { intros i j k. unfold hub. destruct (Nat.eqb_spec i j), (Nat.eqb_spec j k), (Nat.eqb_spec i k), (Nat.eqb_spec i 0), (Nat.eqb_spec j 0), (Nat.eqb_spec k 0); cbn; lia. }
  split; [reflexivity|]. split; [intros [|n]; cbn; lia|]. split; [reflexivity|]. split; [apply in_sweep_order_solver|].
  split. { intros i Hi. assert (HC : (i = 1 \/ i = 2 \/ i = 3)%nat) by lia. destruct HC as [->|[->| ->]]; (split; [vm_compute; intros _; discriminate|exact I]). }
  split; [apply Permutation_refl|]. split; [apply cut_all_honest|]. split; [lia|]. split; [exists (mkscp [[];[];[]] [] [] None); reflexivity|]. exists 2, 3%nat.
  intros fuel Hf. replace fuel with (30 + (fuel - 30))%nat by lia. generalize (fuel - 30)%nat. intros m. split; vm_compute; reflexivity.
Qed.
Print Assumptions C72_interrupt_lost_refuted.
