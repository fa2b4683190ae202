(** * Model of the uniform interface of the heuristics: call_init(points, D, d, C, L, st, wtt, single, minimize_K)

    The functions call_init made by get_*_algorithm in classic_heuristics/*.py, with the parameters they hand over and the
    defaults of the heuristics.  Those of wh and of the three heuristics that need Gurobi are left out. *)
From Verif Require Import Spec Spec_tyagi PyBase M_util M_psavings M_ssavings M_savfam M_cins M_mj M_nn M_pnn M_tyagi M_sweep M_polar M_gm M_rfcs M_lr3opt2 M_lr3opt3 M_cmt M_text M_cli.

(** The first entries of the tuples of __init__.py:111-166 *)
Inductive heuristic := HPs | HPs2o | HGpl | HSs | HGps | HIms | HSi | HMj | HPi | HCmt | HSn | HPn | HTy | HSwp | HGm | HRfcs | HLr3o.
Definition heuristics : list heuristic := [HPs; HPs2o; HGpl; HSs; HGps; HIms; HSi; HMj; HPi; HCmt; HSn; HPn; HTy; HSwp; HGm; HRfcs; HLr3o].
Definition short_name (h : heuristic) : text :=
  match h with
  | HPs => str "ps" | HPs2o => str "ps2o" | HGpl => str "gpl" | HSs => str "ss" | HGps => str "gps" | HIms => str "ims"
  | HSi => str "si" | HMj => str "mj" | HPi => str "pi" | HCmt => str "cmt" | HSn => str "sn" | HPn => str "pn"
  | HTy => str "ty" | HSwp => str "swp" | HGm => str "gm" | HRfcs => str "rfcs" | HLr3o => str "lr3o"
  end.

(** What a call meets besides its arguments: the points, np.argsort, the TSP solver imported (tyagi_nearest_neighbor.py:27-33,
    cmt_2phase.py:27-38, rfcs.py:24-32, lr3opt.py:25-33), solve_tsp_2opt and solve_tsp_3opt of tsp_solver_ropt.py for the matrix given
    (gillet_miller_sweep.py:31, rfcs.py:34), the scores of the nodes in the exchanges of gm, the multipliers of lr3o that overflow, the identities of route objects that decide ties, and np.argpartition. *)
Record surroundings := mks {
  s_points : list (list Z);
  s_argsort : list fraction -> list nat;
  s_solve_tsp : list nat -> list nat * Z;
  s_2opt : matrix -> list nat -> list nat * Z;
  s_3opt : matrix -> list nat -> list nat * Z;
  s_score : bool -> nat -> nat -> Z;
  s_inf : Z -> bool;
  s_ident : nat -> Z;
  s_ident' : nat -> Z;
  s_ident_mj : Z * Z * init_method -> nat -> Z;
  s_argpartition : nat -> list Z -> list nat }.

(** NotImplementedError is an exception as any other here. *)
Definition of_wrapped (w : wrapped) : algo_outcome :=
  match w with
  | WReturns s => Returns s
  | WInterrupted s => Interrupt (Some s)
  | WNotImplemented | WRaises _ | WBroken => Raises
  end.
Definition of_insertion (o : coutcome) : algo_outcome :=
  match o with M_cins.Solution sol => Returns (Some sol) | RanOutOfSeeds => Raises end.
Definition of_mj (o : option mj_end) : algo_outcome :=
  match o with Some (M_mj.Returns s) => Returns s | Some (Interrupts s) => Interrupt s | None => Raises end.
Definition of_sweep (r : sw_result) : algo_outcome := match r with SwReturns s => Returns s | SwRaises => Raises end.
Definition of_tyagi (r : ty_result) : algo_outcome := match r with TyReturn s => Returns s | TyRaises => Raises end.
Definition of_rfcs (r : rf_outcome) : algo_outcome :=
  match r with RfReturns s => Returns (Some s) | RfInterrupted s => Interrupt (Some s) | RfNameError => Raises end.
Definition of_lr3opt (r : lr_called) : algo_outcome :=
  match r with LrNotImplemented => Raises | LrEnds (LrReturn s) => Returns s | LrEnds (LrInterrupt s) => Interrupt s end.
(** [None]: an exception *)
Definition of_savings (r : option (option (list nat))) : algo_outcome := match r with Some s => Returns s | None => Raises end.

(** [None]: out of fuel.  Simplification: for gps and ps2o, [None] also stands for an exception of the local search. *)
Definition call_init (h : heuristic) (s : surroundings) (eps : Z) (N : nat) (D : matrix) (d : demands) (C L : limit)
           (single minimize_K : bool) (fuel : nat) : option algo_outcome :=
  match h with
  (* parallel_savings.py:191-192 *)
  | HPs => Some (of_savings (parallel_savings_init eps eps N D d C L minimize_K (clarke_wright_savings N D)))
  (* cawlip_savings.py:58-59 *)
  | HPs2o => option_map (fun sol => Returns (Some sol)) (match cawlip_savings_init eps eps N D d C L minimize_K fuel with Some r => r | None => None end)
  (* gaskell_savings.py:123-125 *)
  | HGpl => Some (of_savings (gaskell_savings_init eps eps N D d C L minimize_K (if single then Pi else Both)))
  (* sequential_savings.py:217-218, initialize_routes_with="closest", savings_callback=clarke_wright_savings *)
  | HSs => Some (match seed_order N D M_ssavings.Closest with
                 | Some seeds => match sequential_savings_init eps eps N D d C L minimize_K (clarke_wright_seq D) seeds with
                                 | Some sol => Returns (Some sol)
                                 | None => Raises
                                 end
                 | None => Raises
                 end)
  (* paessens_savings.py:149-150, strategy="M4", do_3opt=True *)
  | HGps => option_map Returns (paessens_savings_init eps eps N D d C L minimize_K M4 true fuel)
  (* suppression_savings.py:163-164, Lprime="auto" *)
  | HIms => Some (of_savings (suppression_savings_init eps eps N D d C L minimize_K None))
  (* cheapest_insertion.py:423-425, the defaults of lines 204-210 *)
  | HSi => option_map (fun r => of_insertion (fst r))
             (cheapest_insertion_init eps eps N D d C L minimize_K 1 M_cins.Farthest (param_criteria 1 1 0 D) (s_ident s) fuel)
  (* mole_jameson_insertion.py:295-300 *)
  | HMj => option_map of_mj (mole_jameson_insertion_init eps N D d C L minimize_K (s_ident_mj s) (if single then ClarkeWright else AllCriteria) fuel)
  (* cheapest_insertion.py:433-440 *)
  | HPi => option_map of_insertion (parallel_insertion_auto eps eps N D d C L minimize_K (s_ident s) (s_ident' s) fuel)
  (* cmt_2phase.py:587-588, the defaults of lines 417-422 *)
  | HCmt => option_map (fun r => Returns (fst r))
              (cmt_2phase_init eps eps N D d C L (s_solve_tsp s) minimize_K (2, 1) (1, 1) FarthestSeed true (Times 1)
                 (fun _ => range 1 N) (fun _ => range 1 N) (fun _ _ K => range 0 K) (s_argpartition s) None fuel)
  (* nearest_neighbor.py:338-343 and 351-377 *)
  | HSn => option_map of_wrapped (snn_call eps eps N D d C L 1 (fun _ => None) minimize_K fuel)
  | HPn => option_map of_wrapped (pnn_call eps eps N D d C L (fun _ => None) single minimize_K fuel)
  (* tyagi_nearest_neighbor.py:355-358, the defaults of lines 178-181 *)
  | HTy => if minimize_K then Some Raises
           else option_map of_tyagi (tyagi_init eps eps N D d C L false true MinPenalty (s_solve_tsp s) fuel)
  (* sweep.py:534-538, routing_algo=None *)
  | HSwp => option_map of_sweep
              (sweep_init_at (s_argsort s) (s_points s) eps eps D d C L minimize_K (in_sweep_order D) N
                 (if single then CW else BothWays) (if single then SmallestAngle else M_sweep.BestAlternative) fuel)
  (* gillet_miller_sweep.py:338-347; the polar coordinates as in sweep_init *)
  | HGm => match read_coordinates (s_argsort s) (s_points s) with
           | None => Some Raises
           | Some (rho, order) =>
               option_map of_sweep (gillet_miller_init eps eps N D d C L minimize_K (s_3opt s) order (s_score s) rho
                                      (if single then CCW else BothWays) (if single then SeedNode 1 else M_sweep.BestAlternative) fuel)
           end
  (* rfcs.py:244-245, the defaults of lines 178-181 *)
  | HRfcs => option_map of_rfcs (rfcs_init eps eps N d C L minimize_K (s_solve_tsp s) (s_2opt s D) (s_3opt s D) None fuel)
  (* lr3opt.py:392-395 *)
  | HLr3o => option_map of_lr3opt (lr3opt_call eps eps N D d C L (s_inf s) (s_solve_tsp s) minimize_K fuel None)
  end.
