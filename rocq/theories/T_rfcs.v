(** * Properties C40, C48, C49: route-first-cluster-second *)
From Verif Require Import Spec Spec_inter Spec_savings Spec_rfcs PyBase M_util M_intra M_psavings M_rfcs P_rfcs3.

(** ** C40: the customers are served once, in feasible routes of consecutive customers of the tour.

    Assumes that routes get longer when customers are added; see C40_served_twice_refuted. *)
Theorem C40_result_partial :
  forall N D d C L ceps seps minimize_K gen f g tour gt len,
    (3 <= N)%nat -> gen (range 1 N) = (gt, len) -> giant_tour N tour gt -> 0 <= len -> grows f tour ->
    solver N D f -> improver N D g -> served_alone N D d C L ceps seps ->
    forall fuel, (N <= fuel)%nat ->
    exists ss rs, rfcs_init ceps seps N d C L minimize_K gen f g None fuel = Some (RfReturns (encode rs)) /\
      serves N D d C L ceps seps rs /\
      rotation tour (concat ss) /\ (2 <= length rs)%nat /\ Forall2 (@Permutation nat) rs ss.
Proof. exact rfcs_result. Qed.
Print Assumptions C40_result_partial.

(** With the default solvers. *)
Theorem C40_built_in_partial :
  forall eps ceps seps N D d C L minimize_K gen tour gt len,
    0 <= eps -> symmetric D -> (3 <= N)%nat -> gen (range 1 N) = (gt, len) -> giant_tour N tour gt -> 0 <= len ->
    served_alone N D d C L ceps seps ->
    exists fuel0, forall fuel, (fuel0 <= fuel)%nat -> grows (as_tsp (solve_tsp_2opt eps fuel D)) tour ->
    exists ss rs,
      rfcs_init ceps seps N d C L minimize_K gen (as_tsp (solve_tsp_2opt eps fuel D)) (as_tsp (solve_tsp_3opt eps fuel D)) None fuel
        = Some (RfReturns (encode rs)) /\
      serves N D d C L ceps seps rs /\
      rotation tour (concat ss) /\ (2 <= length rs)%nat /\ Forall2 (@Permutation nat) rs ss.
Proof. exact rfcs_built_in. Qed.
Print Assumptions C40_built_in_partial.

(** In a metric, without further assumptions: routes costed in the order of the tour, or by an
    exact solver. *)
Theorem C40_inorder_metric :
  forall ceps seps N D d C L minimize_K gen g tour gt len,
    symmetric D -> triangle D -> (3 <= N)%nat -> gen (range 1 N) = (gt, len) -> giant_tour N tour gt -> 0 <= len ->
    improver N D g -> served_alone N D d C L ceps seps ->
    forall fuel, (N <= fuel)%nat ->
    exists ss rs, rfcs_init ceps seps N d C L minimize_K gen (inorder D) g None fuel = Some (RfReturns (encode rs)) /\
      serves N D d C L ceps seps rs /\
      rotation tour (concat ss) /\ (2 <= length rs)%nat /\ Forall2 (@Permutation nat) rs ss.
Proof. exact rfcs_inorder. Qed.
Print Assumptions C40_inorder_metric.

Theorem C40_exact_metric :
  forall ceps seps N D d C L minimize_K gen f g tour gt len,
    symmetric D -> triangle D -> (3 <= N)%nat -> gen (range 1 N) = (gt, len) -> giant_tour N tour gt -> 0 <= len ->
    solver N D f -> exact_solver N D f -> improver N D g -> served_alone N D d C L ceps seps ->
    forall fuel, (N <= fuel)%nat ->
    exists ss rs, rfcs_init ceps seps N d C L minimize_K gen f g None fuel = Some (RfReturns (encode rs)) /\
      serves N D d C L ceps seps rs /\
      rotation tour (concat ss) /\ (2 <= length rs)%nat /\ Forall2 (@Permutation nat) rs ss.
Proof. exact rfcs_exact. Qed.
Print Assumptions C40_exact_metric.

(** The built-in solvers are solvers. *)
Theorem C40_built_in_solvers :
  forall eps D N do2opt do3opt, 0 <= eps -> symmetric D ->
    exists fuel0, forall fuel, (fuel0 <= fuel)%nat ->
      solver N D (as_tsp (fun l => solve_tsp_ropt eps fuel D l None do2opt do3opt)) /\
      improver N D (as_tsp (fun l => solve_tsp_ropt eps fuel D l None do2opt do3opt)).
Proof. exact ropt_solver. Qed.
Print Assumptions C40_built_in_solvers.

(** Customers on a line: 1, 2, 3 to the right of the depot, 4, 5 to the left. *)
Definition rf_pos : list Z := [0; 2; 5; 9; -4; -7].
Definition rf_line : matrix := fun i j => Z.abs (nth i rf_pos 0 - nth j rf_pos 0).
Definition rf_gen : tsp := fun _ => ([1; 2; 3; 5; 4; 1]%nat, 32).
Definition rf_2opt D := as_tsp (solve_tsp_2opt 0 20 D).
Definition rf_3opt D := as_tsp (solve_tsp_3opt 0 20 D).

Example C40_splits :
  giant_tour 6 [1; 2; 3; 5; 4]%nat [1; 2; 3; 5; 4; 1]%nat /\ grows (rf_2opt rf_line) [1; 2; 3; 5; 4]%nat /\
  served_alone 6 rf_line (fun _ => 1) (Some 3) (Some 30) 0 0 /\ symmetric rf_line /\ triangle rf_line /\
  rfcs_init 0 0 6 (fun _ => 1) (Some 3) (Some 30) false rf_gen (rf_2opt rf_line) (rf_3opt rf_line) None 10
    = Some (RfReturns [0; 5; 4; 0; 1; 2; 3; 0]%nat) /\
  rfcs_init 0 0 6 (fun _ => 1) (Some 2) (Some 30) false rf_gen (rf_2opt rf_line) (rf_3opt rf_line) None 10
    = Some (RfReturns [0; 5; 4; 0; 1; 0; 2; 3; 0]%nat).
Proof.
  split; [split; [|now right]; cbn; do 3 apply perm_skip; apply perm_swap|]. split; [apply grows_b_sound; vm_compute; reflexivity|].
  split; [intros [|[|[|[|[|[|i]]]]]] Hi; try lia; vm_compute; split; intros _ H; discriminate H|].
  split; [intros i j; unfold rf_line; lia|]. split; [intros i j k; unfold rf_line; lia|]. split; vm_compute; reflexivity.
Qed.

(** Without growing routes the table of shortest paths may go round the tour twice: customers 2, 3, 4
    and 5 are served twice, with the default solvers and a symmetric matrix. *)
Definition rf_twice : matrix := fun i j => nth j (nth i
  [[0; 10; 0; 0; 0; 20]; [10; 0; 0; 1; 0; 0]; [0; 0; 0; 10; 0; 0]; [0; 1; 10; 0; 20; 0]; [0; 0; 0; 20; 0; 0]; [20; 0; 0; 0; 0; 0]] []) 0.
Theorem C40_served_twice_refuted :
  exists N D d C gen gt len sol x,
    symmetric D /\ (forall i j, 0 <= D i j) /\ gen (range 1 N) = (gt, len) /\ giant_tour N gt gt /\ 0 <= len /\
    served_alone N D d C None 0 0 /\
    rfcs_init 0 0 N d C None false gen (as_tsp (solve_tsp_2opt 0 20 D)) (as_tsp (solve_tsp_3opt 0 20 D)) None 20 = Some (RfReturns sol) /\
    (0 < x < N)%nat /\ count_occ Nat.eq_dec sol x = 2%nat.
Proof.
  exists 6%nat, rf_twice, (fun _ => 1), (Some 3), (fun _ => ([3; 5; 4; 2; 1]%nat, 1)), [3; 5; 4; 2; 1]%nat, 1,
    [0; 4; 1; 2; 0; 3; 0; 4; 5; 2; 0; 3; 5; 1; 0]%nat, 2%nat.
  split.
  { intros [|[|[|[|[|[|i]]]]]] [|[|[|[|[|[|j]]]]]]; try reflexivity; try (destruct i; reflexivity); try (destruct j; reflexivity); destruct i, j; reflexivity. }
  split.
  { intros [|[|[|[|[|[|i]]]]]] [|[|[|[|[|[|j]]]]]]; try discriminate; try (destruct i; discriminate); try (destruct j; discriminate); destruct i, j; discriminate. }
  split; [reflexivity|]. split; [split; [|now left]|].
  { cbn. apply NoDup_Permutation; [repeat constructor; cbn; lia|repeat constructor; cbn; lia|]. intros x. cbn. lia. }
  split; [lia|]. split; [intros i Hi; split; [cbn; lia|exact I]|]. split; [vm_compute; reflexivity|]. split; [lia|reflexivity].
Qed.
Print Assumptions C40_served_twice_refuted.

(** ** C48: no partition of the tour into at least two consecutive routes is cheaper.

    A fixed cost per route is added with minimize_K. *)
Theorem C48_best_partition_partial :
  forall N D d C L ceps seps minimize_K gen f g tour gt len,
    (3 <= N)%nat -> gen (range 1 N) = (gt, len) -> giant_tour N tour gt -> 0 <= len -> grows f tour ->
    solver N D f -> improver N D g -> served_alone N D d C L ceps seps ->
    forall fuel, (N <= fuel)%nat ->
    exists rs, rfcs_init ceps seps N d C L minimize_K gen f g None fuel = Some (RfReturns (encode rs)) /\
      forall ss, partition d C L ceps seps f tour ss ->
        routes_cost D rs + (if minimize_K then len else 0) * Z.of_nat (length rs)
        <= sum_costs f ss + (if minimize_K then len else 0) * Z.of_nat (length ss).
Proof. exact rfcs_best. Qed.
Print Assumptions C48_best_partition_partial.

(** Routes in the order of the tour. *)
Theorem C48_inorder_partial :
  forall ceps seps N D d C L minimize_K gen g tour gt len,
    symmetric D -> triangle D -> (forall j, 0 <= d j) -> (3 <= N)%nat ->
    gen (range 1 N) = (gt, len) -> giant_tour N tour gt -> 0 <= len -> improver N D g -> served_alone N D d C L ceps seps ->
    forall fuel, (N <= fuel)%nat ->
    exists rs, rfcs_init ceps seps N d C L minimize_K gen (inorder D) g None fuel = Some (RfReturns (encode rs)) /\
      forall ss, rotation tour (concat ss) -> (2 <= length ss)%nat -> Forall (fun s => s <> []) ss ->
        Forall (feasible D d C L ceps seps) ss ->
        routes_cost D rs + (if minimize_K then len else 0) * Z.of_nat (length rs)
        <= routes_cost D ss + (if minimize_K then len else 0) * Z.of_nat (length ss).
Proof. exact rfcs_inorder_best. Qed.
Print Assumptions C48_inorder_partial.

(** With an exact solver: routes that serve consecutive customers in any order. *)
Theorem C48_exact_partial :
  forall ceps seps N D d C L minimize_K gen f g tour gt len,
    symmetric D -> triangle D -> (forall j, 0 <= d j) -> (3 <= N)%nat ->
    gen (range 1 N) = (gt, len) -> giant_tour N tour gt -> 0 <= len ->
    solver N D f -> exact_solver N D f -> improver N D g -> served_alone N D d C L ceps seps ->
    forall fuel, (N <= fuel)%nat ->
    exists rs, rfcs_init ceps seps N d C L minimize_K gen f g None fuel = Some (RfReturns (encode rs)) /\
      forall ss rs', rotation tour (concat ss) -> Forall2 (@Permutation nat) rs' ss -> (2 <= length rs')%nat ->
        Forall (fun r => r <> []) rs' -> Forall (feasible D d C L ceps seps) rs' ->
        routes_cost D rs + (if minimize_K then len else 0) * Z.of_nat (length rs)
        <= routes_cost D rs' + (if minimize_K then len else 0) * Z.of_nat (length rs').
Proof. exact rfcs_exact_best. Qed.
Print Assumptions C48_exact_partial.

Example C48_splits :
  partition (fun _ => 1) (Some 2) None 0 0 (inorder rf_line) [1; 2; 3; 5; 4]%nat [[4; 1]; [2; 3]; [5]]%nat /\
  sum_costs (inorder rf_line) [[4; 1]; [2; 3]; [5]]%nat = 44 /\
  rfcs_init 0 0 6 (fun _ => 1) (Some 2) None false rf_gen (inorder rf_line) (rf_3opt rf_line) None 10
    = Some (RfReturns [0; 5; 4; 0; 1; 0; 2; 3; 0]%nat) /\
  routes_cost rf_line [[1]; [2; 3]; [5; 4]]%nat = 36.
Proof.
  split; [|split; [reflexivity|split; [vm_compute; reflexivity|reflexivity]]].
  split; [exists [1; 2; 3; 5]%nat, [4]%nat; cbn; auto|]. split; [cbn; lia|]. split; [repeat constructor; discriminate|].
  repeat (apply Forall_cons; [intros [|x [|y [|z a]]] b E Ha; [contradiction|..]; try discriminate E;
    injection E as; subst; (split; [vm_compute; intros _ H; discriminate H|exact I])|]). apply Forall_nil.
Qed.

(** Two routes at least: one route through all customers is not considered although it may be
    feasible and cheaper. *)
Theorem C48_single_route_refuted :
  exists N D d gen gt len r sol,
    symmetric D /\ triangle D /\ gen (range 1 N) = (gt, len) /\ giant_tour N gt gt /\ 0 <= len /\
    rfcs_init 0 0 N d None None true gen (as_tsp (solve_tsp_2opt 0 20 D)) (as_tsp (solve_tsp_3opt 0 20 D)) None 20 = Some (RfReturns sol) /\
    rotation gt r /\ serves N D d None None 0 0 [r] /\ path_cost D (encode [r]) < path_cost D sol.
Proof.
  exists 3%nat, rf_line, (fun _ => 1), (fun _ => ([1; 2]%nat, 6)), [1; 2]%nat, 6, [1; 2]%nat, [0; 2; 0; 1; 0]%nat.
  split; [intros i j; unfold rf_line; lia|]. split; [intros i j k; unfold rf_line; lia|]. split; [reflexivity|].
  split; [split; [apply Permutation_refl|now left]|]. split; [lia|]. split; [vm_compute; reflexivity|].
  split; [exists [], [1; 2]%nat; auto|]. split; [|reflexivity].
  split; [apply Permutation_refl|]. split; [constructor; [discriminate|constructor]|]. constructor; [split; exact I|constructor].
Qed.
Print Assumptions C48_single_route_refuted.

(** ** C49: interrupted, it still gives routes that serve everyone once, in the order of the tour.

    Their capacities are respected unless all customers are in one route. *)
Theorem C49_interrupt_partial :
  forall N d C L ceps seps minimize_K gen f g tour gt len,
    (3 <= N)%nat -> gen (range 1 N) = (gt, len) -> giant_tour N tour gt -> 0 <= len -> grows f tour ->
    forall s fuel, (N <= fuel)%nat ->
    exists rs, rfcs_init ceps seps N d C L minimize_K gen f g (Some (AfterEntries s)) fuel = Some (RfInterrupted (encode rs)) /\
      rotation tour (concat rs) /\ covers N rs /\ Forall (fun r => r <> []) rs /\
      (length rs = 1%nat \/ Forall (fun r => within C ceps (demand d r)) rs).
Proof. exact rfcs_interrupted. Qed.
Print Assumptions C49_interrupt_partial.

(** An interrupt during the first route computation is lost in a NameError. *)
Theorem C49_name_error_refuted :
  forall N d C L ceps seps minimize_K gen f g tour gt len,
    (3 <= N)%nat -> gen (range 1 N) = (gt, len) -> giant_tour N tour gt -> 0 <= len -> grows f tour ->
    forall fuel, (N <= fuel)%nat ->
    rfcs_init ceps seps N d C L minimize_K gen f g (Some BeforeCost) fuel = Some RfNameError.
Proof. exact rfcs_name_error. Qed.
Print Assumptions C49_name_error_refuted.

Example C49_interrupts :
  rfcs_init 0 0 6 (fun _ => 1) (Some 2) None false rf_gen (rf_2opt rf_line) (rf_3opt rf_line) (Some (AfterEntries 3)) 10
    = Some (RfInterrupted [0; 2; 3; 5; 4; 1; 0]%nat) /\
  rfcs_init 0 0 6 (fun _ => 1) (Some 2) None false rf_gen (rf_2opt rf_line) (rf_3opt rf_line) (Some (AfterEntries 10)) 10
    = Some (RfInterrupted [0; 5; 4; 0; 1; 0; 2; 3; 0]%nat) /\
  rfcs_init 0 0 6 (fun _ => 1) (Some 2) None false rf_gen (rf_2opt rf_line) (rf_3opt rf_line) (Some BeforeCost) 10
    = Some RfNameError.
Proof. split; [|split]; vm_compute; reflexivity. Qed.

(** The one route may exceed the capacity. *)
Theorem C49_capacity_refuted :
  exists N D d C gen gt len r,
    symmetric D /\ triangle D /\ gen (range 1 N) = (gt, len) /\ (exists tour, giant_tour N tour gt /\ grows (as_tsp (solve_tsp_2opt 0 20 D)) tour) /\
    served_alone N D d C None 0 0 /\
    rfcs_init 0 0 N d C None false gen (as_tsp (solve_tsp_2opt 0 20 D)) (as_tsp (solve_tsp_3opt 0 20 D)) (Some (AfterEntries 3)) 20
      = Some (RfInterrupted (encode [r])) /\
    ~ within C 0 (demand d r).
Proof.
  exists 6%nat, rf_line, (fun _ => 1), (Some 2), rf_gen, [1; 2; 3; 5; 4; 1]%nat, 32, [2; 3; 5; 4; 1]%nat.
  split; [intros i j; unfold rf_line; lia|]. split; [intros i j k; unfold rf_line; lia|]. split; [reflexivity|].
  split; [exists [1; 2; 3; 5; 4]%nat; split; [split; [|now right]; cbn; do 3 apply perm_skip; apply perm_swap|apply grows_b_sound; vm_compute; reflexivity]|].
  split; [intros i Hi; split; [cbn; lia|exact I]|]. split; [vm_compute; reflexivity|].
  cbn. intros H. specialize (H ltac:(discriminate)). lia.
Qed.
Print Assumptions C49_capacity_refuted.
