(** * What all heuristics have in common *)
From Verif Require Import Spec Spec_inter Spec_savings Spec_nn Spec_cins Spec_cins2 Spec_rfcs Spec_sweep Spec_mj Spec_tyagi Spec_mbsa Spec_petal Spec_wh Spec_gap
  M_cvrp_ops M_psavings M_ssavings M_savfam M_cli M_nn M_cins M_mj M_sweep M_gm M_wh M_rfcs M_lr3opt M_lr3opt2 M_tyagi M_mbsa M_petal M_cmt M_gap M_pnn.

(** A problem with at least one customer, symmetric distances, demands that are not negative, and in which every
    customer could be served alone *)
Record problem (N : nat) (D : matrix) (d : demands) (C L : limit) (eps : Z) : Prop := {
  pb_size : (2 <= N)%nat;
  pb_eps : 0 <= eps;
  pb_sym : symmetric D;
  pb_nonneg : nonneg_matrix D;
  pb_depot : D 0%nat 0%nat = 0;
  pb_demand : forall n, 0 <= d n;
  pb_demand0 : d 0%nat = 0;
  pb_alone : served_alone N D d C L eps eps }.

(** validate_solution_feasibility finds nothing wrong: coverage, capacity and length *)
Definition passes (N : nat) (D : matrix) (d : demands) (C L : limit) (eps : Z) (sol : list nat) : Prop :=
  validate_solution_feasibility N sol D d C L eps = Some (true, true, true).

(** A call that returns: with enough fuel the model gives [a]. *)
Definition ends_with {A} (call : nat -> option A) (a : A) : Prop := exists fuel0, forall fuel, (fuel0 <= fuel)%nat -> call fuel = Some a.

(** The solutions the heuristics of the library return, with what is expected of their parameters: TSP solvers return
    tours of the nodes with their lengths ([solver]; [shortens]: not longer than the tour given), the sweep visits
    everybody, the integer program solvers are right, and so on. *)
Inductive returned (N : nat) (D : matrix) (d : demands) (C L : limit) (eps : Z) : list nat -> Prop :=
| By_parallel_savings minimize_K savings sol : valid_pairs N savings ->
    parallel_savings_init eps eps N D d C L minimize_K savings = Some (Some sol) -> returned N D d C L eps sol
| By_sequential_savings minimize_K cb seeds sol : (forall i, (1 <= i < N)%nat -> In i seeds) ->
    sequential_savings_init eps eps N D d C L minimize_K cb seeds = Some sol -> returned N D d C L eps sol
| By_gaskell minimize_K m sol : gaskell_savings_init eps eps N D d C L minimize_K m = Some (Some sol) -> returned N D d C L eps sol
| By_paessens minimize_K s do_3opt sol : base_parameters s <> [] ->
    ends_with (paessens_savings_init eps eps N D d C L minimize_K s do_3opt) (Some sol) -> returned N D d C L eps sol
| By_suppression minimize_K Lprime sol : (3 <= N)%nat -> Lprime <> Some 0%nat ->
    suppression_savings_init eps eps N D d C L minimize_K Lprime = Some (Some sol) -> returned N D d C L eps sol
| By_cawlip minimize_K sol : ends_with (cawlip_savings_init eps eps N D d C L minimize_K) (Some sol) -> returned N D d C L eps sol
| By_nearest_neighbor K m ends_only sol pts : self_first N D -> (1 <= K)%nat -> (m = NNnearest -> K = 1%nat) ->
    ends_with (nearest_neighbor_init eps eps N D d C L K m ends_only []) (NNok (Some sol), pts) -> returned N D d C L eps sol
| By_parallel_nearest_neighbor single minimize_K sol : self_first N D ->
    ends_with (pnn_call eps eps N D d C L (fun _ => None) single minimize_K) (WReturns (Some sol)) -> returned N D d C L eps sol
| By_cheapest_insertion minimize_K K m strain ident sol pts : single_seeds D m strain -> (1 <= K < N)%nat ->
    ends_with (cheapest_insertion_init eps eps N D d C L minimize_K K m strain ident) (Solution sol, pts) -> returned N D d C L eps sol
| By_parallel_insertion minimize_K ident ident' sol :
    ends_with (parallel_insertion_auto eps eps N D d C L minimize_K ident ident') (Solution sol) -> returned N D d C L eps sol
| By_mole_jameson minimize_K ident c sol : metric D ->
    ends_with (mole_jameson_insertion_init eps N D d C L minimize_K ident c) (Some (Returns (Some sol))) -> returned N D d C L eps sol
| By_sweep f order minimize_K rho dir s sol : solver N D f -> Permutation order (seq 1 (N - 1)) -> seed_ok N rho s ->
    ends_with (sweep_init eps eps D d C L minimize_K f order N rho dir s) (SwReturns (Some sol)) -> returned N D d C L eps sol
| By_gillet_miller tsp order score minimize_K rho dir s fuel sol : solver N D (tsp D) -> Permutation order (seq 1 (N - 1)) -> seed_ok N rho s ->
    gillet_miller_init eps eps N D d C L minimize_K tsp order score rho dir s fuel = Some (SwReturns (Some sol)) -> returned N D d C L eps sol
| By_wren_holliday order overlap gap set_order minimize_K full_convergence sweeps fuel sol :
    wh_instance eps N D d C L order gap set_order -> good_sweeps N sweeps -> sweeps <> [] ->
    wren_holliday_init eps N D d C L order overlap gap set_order minimize_K full_convergence sweeps fuel = Some (WhReturns (Some sol)) -> returned N D d C L eps sol
| By_rfcs minimize_K gen f g tour gt len sol : (3 <= N)%nat -> gen (PyBase.range 1 N) = (gt, len) -> giant_tour N tour gt -> 0 <= len -> grows f tour ->
    solver N D f -> improver N D g ->
    ends_with (rfcs_init eps eps N d C L minimize_K gen f g None) (RfReturns sol) -> returned N D d C L eps sol
| By_lr3opt K lC lL inf postopt max_incs rs0 fuel stop sol : covers N rs0 ->
    lr3opt_init eps eps D d C L K lC lL inf postopt max_incs (Some (encode rs0)) fuel stop = Some (LrReturn (Some sol)) -> returned N D d C L eps sol
| By_tyagi only_large try_all g f sol : (forall c, C = Some c -> 0 <= c) -> ((3 <= N)%nat \/ ~ limit_set C) -> self_first N D ->
    solver N D f -> (limit_set L -> shortens N D f) ->
    ends_with (tyagi_init eps eps N D d C L only_large try_all g f) (TyReturn (Some sol)) -> returned N D d C L eps sol
| By_matching minimize_K W f second mm fuel sol : solver N D f -> (forall sv n x, mm sv n = MipOptimal x -> optimal sv x) ->
    mbsa_init eps eps N D d C L minimize_K W f second mm fuel = Some (MbReturn sol) -> returned N D d C L eps sol
| By_petal gurobi feas_relax quicksum f order K minimize_K relaxe min_iter ratio allow disc v fuel cnt sol : triangle D ->
    solver N D f -> Permutation order (seq 1 (N - 1)) -> honest quicksum N gurobi -> uninterrupted gurobi -> uninterrupted feas_relax ->
    petal_init eps gurobi feas_relax N D d C L f order K minimize_K relaxe None min_iter ratio allow disc v fuel = Some (PtReturn (Some sol), cnt) ->
    returned N D d C L eps sol
| By_cmt f minimize_K lam mu m most assoc order1 order2 shuffled argp retries ints sol : solver N D f -> (limit_set L -> shortens N D f) ->
    (forall t, Permutation (order1 t) (seq 1 (N - 1)) /\ Permutation (order2 t) (seq 1 (N - 1)) /\ forall p K, Permutation (shuffled t p K) (seq 0 K)) ->
    retries <> Some 0%nat ->
    ends_with (cmt_2phase_init eps eps N D d C L f minimize_K lam mu m most assoc order1 order2 shuffled argp retries) (Some sol, ints) -> returned N D d C L eps sol
| By_gap f edges seeds half_st gurobi K minimize_K find_optimal_seeds use_adaptive increase_K fuel found sol : solver N D f -> gap_honest gurobi ->
    gap_init eps N D d C L f edges seeds half_st gurobi K minimize_K find_optimal_seeds use_adaptive increase_K fuel = Some (GapReturns (Some sol) found) ->
    returned N D d C L eps sol.
