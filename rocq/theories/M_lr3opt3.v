(** * Model of lr3opt_init with its default parameters

    classic_heuristics/lr3opt.py:158-166 (_init_with_tsp), 209-211 (_get_max), 282-294 (the multipliers) and 389-397
    (call_init). *)
From Verif Require Import Spec Spec_rfcs PyBase M_util M_psavings M_3optstar M_lr3opt M_lr3opt2.

(** Lines 164-166: the solver is given all the nodes. *)
Definition init_with_tsp (N : nat) (solve_tsp : tsp) : list nat := fst (solve_tsp (range 0 N)) ++ [0%nat].

(** np.max and the minimum of a column; 0 for no values, where numpy raises *)
Definition np_max (l : list Z) : Z := match l with [] => 0 | x :: l => fold_left Z.max l x end.
Definition np_min (l : list Z) : Z := match l with [] => 0 | x :: l => fold_left Z.min l x end.

(** Lines 209-211.  Simplification: the nodes are not made unique, which does not change the maximum. *)
Definition get_max (D : matrix) (with_sol : list nat) : Z := np_max (flat_map (fun i => map (D i) with_sol) with_sol).

(** Lines 291-293: column [j] of the matrix with [max_D] on its diagonal *)
Definition closest_neighbor (N : nat) (D : matrix) (max_D : Z) (j : nat) : Z :=
  np_min (map (fun i => if Nat.eqb i j then max_D else D i j) (range 0 N)).

(** Lines 282-294: the multipliers over their common denominator [20 * len(d) * max_D], for no limit 1.  Left out:
    max_D = 0 with a limit, where numpy divides by zero. *)
Definition default_multipliers (N : nat) (D : matrix) (d : demands) (C L : limit) (sol : list nat) : Z * option Z * option Z :=
  let max_D := get_max D sol in
  ( (if is_set C || is_set L then 20 * Z.of_nat N * max_D else 1),
    (if is_set C then Some (sumZ (map d (range 0 N))) else None),
    (if is_set L then Some (2 * sumZ (map (closest_neighbor N D max_D) (range 0 N))) else None) ).

(** lr3opt_init(D, d, C, L) *)
Definition lr3opt_default (ceps seps : Z) (N : nat) (D : matrix) (d : demands) (C L : limit) (inf : Z -> bool) (solve_tsp : tsp)
           (fuel : nat) (stop : option nat) : option lr_outcome :=
  let sol := init_with_tsp N solve_tsp in
  let '(K, lC, lL) := default_multipliers N D d C L sol in
  lr3opt_init ceps seps D d C L K lC lL inf true None (Some sol) fuel stop.

(** Lines 392-395 *)
Inductive lr_called := LrNotImplemented | LrEnds (o : lr_outcome).
Definition lr3opt_call (ceps seps : Z) (N : nat) (D : matrix) (d : demands) (C L : limit) (inf : Z -> bool) (solve_tsp : tsp)
           (minimize_K : bool) (fuel : nat) (stop : option nat) : option lr_called :=
  if minimize_K then Some LrNotImplemented
  else option_map LrEnds (lr3opt_default ceps seps N D d C L inf solve_tsp fuel stop).
