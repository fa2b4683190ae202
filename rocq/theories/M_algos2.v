(** * Model of the function call_init of get_wh_algorithm, wren_holliday_sweep.py:760-762

    As in M_wh.v, which routes overlap, where the largest gap of a sweep is and in which order a set gives its elements
    are parameters. *)
From Verif Require Import Spec PyBase M_util M_sweep M_polar M_whstart M_wh M_cli.

Definition of_wh (r : wh_result) : algo_outcome := match r with WhReturns s => Returns s | WhRaises => Raises end.
(** Lines 760-762 with the defaults of lines 477-479 (both directions, full convergence).  [None]: out of fuel *)
Definition wh_call (argsort : list fraction -> list nat) (points : list (list Z)) (overlap : list nat -> list nat -> bool)
           (gap : list nat -> nat) (set_order : list nat -> list nat) (eps : Z) (N : nat) (D : matrix) (d : demands) (C L : limit)
           (single minimize_K : bool) (fuel : nat) : option algo_outcome :=
  match read_coordinates argsort points, wh_sweeps argsort points (Some (map d (range 0 N))) (wh_cli_seed single) BothWays with
  | Some (_, order), Some sweeps =>
      option_map of_wh (wren_holliday_init eps N D d C L order overlap gap set_order minimize_K true sweeps fuel)
  | _, _ => Some Raises
  end.
