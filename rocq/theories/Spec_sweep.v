(** * Vocabulary for the sweep *)
From Verif Require Import Spec Spec_rfcs Spec_inter Spec_savings M_sweep.
From Coq Require Import List Permutation.
Import ListNotations.
Local Open Scope Z_scope.

(** The customers as they are met on the circle from position [start], in the order of the sweep
    ([ccw]) or against it. *)
Definition circle (ccw : bool) (order : list nat) (start : nat) : list nat :=
  if ccw then skipn start order ++ firstn start order
  else rev (firstn (S start) order) ++ rev (skipn (S start) order).

(** Seeds that name a place to start from. *)
Definition seed_ok (N : nat) (rho : list Z) (s : sw_seed) : Prop :=
  match s with
  | ClosestToDepot => length rho = (N - 1)%nat
  | SmallestAngle | BestAlternative => True
  | SeedNode n => Nat.modulo n N <> 0%nat
  | SeedPositions ps => ps <> [] /\ Forall (fun p => (p < N - 1)%nat) ps
  end.

(** Where sweeps start: at the customer closest to the depot (the first one in the order if there are several;
    [rho]: their distances), at the smallest angle, everywhere, at a customer, at the given positions. *)
Definition starts_at (N : nat) (order : list nat) (rho : list Z) (s : sw_seed) (p : nat) : Prop :=
  match s with
  | ClosestToDepot => (p < N - 1)%nat /\ forall q, (q < N - 1)%nat -> nth p rho 0 <= nth q rho 0 /\ ((q < p)%nat -> nth p rho 0 < nth q rho 0)
  | SmallestAngle => p = 0%nat
  | BestAlternative => (p < N - 1)%nat
  | SeedNode n => nth_error order p = Some (Nat.modulo n N)
  | SeedPositions ps => In p ps
  end.
(** In which directions they go ([true]: in the order of the angles). *)
Definition goes (dir : sw_direction) (ccw : bool) : Prop :=
  match dir with CCW => ccw = true | CW => ccw = false | BothWays => True end.

(** The sweep from position [start] ends, with the routes [rs]. *)
Definition sweep_gives ceps seps (D : matrix) (d : demands) (C L : limit) (f : tsp) (order : list nat) (ccw : bool) (start : nat) (rs : list (list nat)) : Prop :=
  exists fuel0 routes, (forall fuel, (fuel0 <= fuel)%nat -> do_one_sweep ceps seps D d C L f order ccw false start fuel = Some (Some routes)) /\
    sweep_sol routes = encode rs /\ Forall customers_only rs.

(** The customers [s] can be one route, or are too many: [f] orders them. *)
Definition fits ceps seps (d : demands) (C L : limit) (f : tsp) (s : list nat) : Prop :=
  within C ceps (demand d s) /\ within L seps (snd (f (0%nat :: s))).

(** The arcs [arcs], followed by [rest], are cut by the sweep rule: each is not empty and fits, and none
    fits with the customer that follows it. *)
Inductive cut_by_rule (fit : list nat -> Prop) (rest : list nat) : list (list nat) -> Prop :=
| cut_nil : cut_by_rule fit rest []
| cut_cons a arcs x after : a <> [] -> fit a -> concat arcs ++ rest = x :: after -> ~ fit (a ++ [x]) ->
    cut_by_rule fit rest arcs -> cut_by_rule fit rest (a :: arcs).

(** The route that [f] makes of the customers [s] *)
Definition tour_of (f : tsp) (s r : list nat) : Prop := fst (f (0%nat :: s)) = 0%nat :: r ++ [0%nat].
