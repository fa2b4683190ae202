(** * Model of the functions call_init of the heuristics that need Gurobi: get_mm_algorithm, matchingvrp.py:366-373,
    get_gap_algorithm, gapvrp.py:949-959, and get_ptl_algorithm, petalvrp.py:995-1010

    As in M_mbsa.v, M_gap.v and M_petal.v, the answers of Gurobi, the TSP solver, the seed points with what is computed
    from them and the number of vehicles of petalvrp.py:694 are parameters. *)
From Verif Require Import Spec PyBase M_util Spec_rfcs M_mbsa M_gap M_petal M_sweep M_polar M_cli.

(** What reaches the caller; the second exception of an interrupted _greedy_merge is an exception like others. *)
Definition of_mbsa (r : mbout) : algo_outcome :=
  match r with MbReturn s => Returns (Some s) | MbInterrupt (GreedySol s) => Interrupt (Some s) | _ => Raises end.
Definition of_gap (r : gap_out) : algo_outcome :=
  match r with GapReturns s _ => Returns s | GapInterrupted s _ => Interrupt s | GapRaises => Raises end.
Definition of_petal (r : ptout) : algo_outcome :=
  match r with PtReturn s => Returns s | PtInterrupt s => Interrupt s | PtGurobiError => Raises end.

(** matchingvrp.py:370-371 with the defaults of lines 238-240: single is not used.  [None]: out of fuel *)
Definition mm_call (f : tsp) mm (eps : Z) (N : nat) (D : matrix) (d : demands) (C L : limit) (single minimize_K : bool) (fuel : nat) : option algo_outcome :=
  option_map of_mbsa (mbsa_init eps eps N D d C L minimize_K 0 f true mm fuel).
(** gapvrp.py:952-957 with the defaults of lines 603-604 *)
Definition gap_call (f : list nat -> list nat * Z) edges seeds half_st gurobi (eps : Z) (N : nat) (D : matrix) (d : demands) (C L : limit)
           (single minimize_K : bool) (fuel : nat) : option algo_outcome :=
  option_map of_gap (gap_init eps N D d C L f edges seeds half_st gurobi None minimize_K (negb single) true false fuel).
(** petalvrp.py:998-1008 with the defaults of lines 581-588 *)
Definition ptl_call (f : routing) (argsort : list fraction -> list nat) (points : list (list Z)) gurobi feas_relax (v : Z)
           (eps : Z) (N : nat) (D : matrix) (d : demands) (C L : limit) (single minimize_K : bool) (fuel : nat) : option algo_outcome :=
  match get_sweep_from_cartesian_coordinates argsort points with
  | None => Some Raises
  | Some (_, _, order) =>
      option_map (fun r => of_petal (fst r))
        (petal_init eps gurobi feas_relax N D d C L f order None minimize_K (negb single) (if single then Some 1%nat else None) None (Some (3, 4)) true Auto v fuel)
  end.
