(** * Specification for the Wren and Holliday heuristic *)
From Verif Require Import Spec_savings Spec_inter PyBase M_util M_routedata M_savfam M_sweep M_wh Spec.

(** An instance and the choices the code leaves to the sweep angles and to Python's sets: distances that are
    symmetric and satisfy the triangle inequality, customers that can be served alone, a sweep through all
    customers, the position of the largest gap of any sweep, and some order of the elements of a set. *)
Record wh_instance (eps : Z) (N : nat) (D : matrix) (d : demands) (C L : limit)
       (order : list nat) (gap : list nat -> nat) (set_order : list nat -> list nat) : Prop := {
  wi_eps : 0 <= eps;
  wi_size : (2 <= N)%nat;
  wi_sym : symmetric D;
  wi_tri : triangle D;
  wi_depot : D 0%nat 0%nat = 0;
  wi_demand : forall n, 0 <= d n;
  wi_demand0 : d 0%nat = 0;
  wi_alone : served_alone N D d C L eps eps;
  wi_order : Permutation order (seq 1 (N - 1));
  wi_gap : forall l, l <> [] -> (gap l < length l)%nat;
  wi_set : forall l, Permutation (set_order l) l
}.
(** The sweeps start at positions of the sweep. *)
Definition good_sweeps (N : nat) (sweeps : list (bool * nat)) : Prop := Forall (fun s => (snd s < N - 1)%nat) sweeps.

(** [rs]: the routes of one sweep *)
Definition swept (eps : Z) (N : nat) (D : matrix) (d : demands) (C L : limit) (order : list nat) (s : bool * nat) (rs : list (list nat)) : Prop :=
  exists fuel, sweep_init eps eps D d C L false (in_sweep_order D) order N [] (if fst s then CCW else CW) (SeedPositions [snd s]) fuel
               = Some (SwReturns (Some (encode rs))).

(** What an interrupted solution still is: every route is within the limits and visits known customers, none twice. *)
Definition partial_plan (eps : Z) (N : nat) (D : matrix) (d : demands) (C L : limit) (rs : list (list nat)) : Prop :=
  Forall (fun r => r <> [] /\ feasible D d C L eps eps r /\ NoDup r /\ forall x, In x r -> (1 <= x < N)%nat) rs.

(** The lists of routes that an interrupt can see while [sol] is being improved: those the loop has been
    through and the one it is at, after any number of steps. *)
Definition seen (eps : Z) (N : nat) (D : matrix) (d : demands) (C L : limit) (order : list nat)
           (overlap : list nat -> list nat -> bool) (gap : list nat -> nat) (set_order : list nat -> list nat)
           (minimize_K full_convergence : bool) (sol : list nat) (rds : list routedata) : Prop :=
  exists fuel, let st := fst (improve eps N D d C L order overlap gap set_order minimize_K full_convergence fuel sol) in
    In rds (ws_routes st :: ws_log st).

(** [rs]: what the routes [rs0] are improved to *)
Definition improved (eps : Z) (N : nat) (D : matrix) (d : demands) (C L : limit) (order : list nat)
           (overlap : list nat -> list nat -> bool) (gap : list nat -> nat) (set_order : list nat -> list nat)
           (minimize_K full_convergence : bool) (rs0 rs : list (list nat)) : Prop :=
  exists fuel st, improve eps N D d C L order overlap gap set_order minimize_K full_convergence fuel (encode rs0) = (st, true) /\
                  to_sol (ws_routes st) = encode rs.

(** Where the search is after [n] turns of its loop, unless it stopped before *)
Fixpoint after_turns (eps : Z) (N : nat) (D : matrix) (d : demands) (C L : limit) (order : list nat)
           (overlap : list nat -> list nat -> bool) (gap : list nat -> nat) (set_order : list nat -> list nat)
           (minimize_K full_convergence : bool) (n fuel : nat) (s : whstate) : turn :=
  match n with
  | O => Next s
  | S n' => match iteration eps N D d C L order overlap gap set_order minimize_K full_convergence fuel s with
            | Next s' => after_turns eps N D d C L order overlap gap set_order minimize_K full_convergence n' fuel s'
            | t => t
            end
  end.
(** The start of the search, with the routes [rs0] *)
Definition before_turns (D : matrix) (d : demands) (rs0 : list (list nat)) : whstate :=
  mkwh (mkw (from_solution (encode rs0) D d) []) true None None.
