(** * Vocabulary for Gillett and Miller's sweep *)
From Verif Require Import Spec Spec_rfcs Spec_inter Spec_savings Spec_sweep M_sweep M_gm.
From Coq Require Import List Permutation.
Import ListNotations.
Local Open Scope Z_scope.

(** The solver never finds a longer tour for fewer customers. *)
Definition no_dearer (N : nat) (f : tsp) : Prop :=
  forall s s', s <> [] -> NoDup s -> NoDup s' -> (forall x, In x s' -> (1 <= x < N)%nat) -> incl s s' -> snd (f (0%nat :: s)) <= snd (f (0%nat :: s')).

(** The sweep with exchanges from position [start] ends, with the routes [rs]. *)
Definition gm_gives ceps seps (N : nat) (D : matrix) (d : demands) (C L : limit) (tsp : matrix -> tsp) (order : list nat)
    (score : bool -> nat -> nat -> Z) (ccw : bool) (start : nat) (rs : list (list nat)) : Prop :=
  exists fuel0 routes, (forall fuel, (fuel0 <= fuel)%nat -> gm_run ceps seps N D d C L tsp order score ccw start fuel = Some (Some routes)) /\
    sweep_sol routes = encode rs /\ Forall customers_only rs.

(** ** The exchange rule.  A route [R] of length [cost] is complete, the next customer in the sweep is the one at
    position [pos], customers are [routed] or not. *)

(** The customer that may leave: the first one with the smallest score. *)
Definition leaves (score : nat -> Z) (R : list nat) (k : nat) : Prop :=
  exists a b, R = a ++ k :: b /\ (forall x, In x a -> score k < score x) /\ (forall x, In x b -> score k <= score x).
(** The customer closest to [p] of those that are [ok], the one with the smallest number if there are several. *)
Definition closest (N : nat) (D : matrix) (ok : nat -> Prop) (p x : nat) : Prop :=
  (1 <= x < N)%nat /\ ok x /\ forall y, (1 <= y < N)%nat -> ok y -> D p x < D p y \/ (D p x = D p y /\ (x <= y)%nat).
(** The customer before the next one on the circle. *)
Definition just_before (ccw : bool) (order : list nat) (pos : nat) : nat := last (circle ccw order pos) 0%nat.
(** Those of the next five that are not routed; and where the path through them ends: at the one after them, or
    at the depot if it is routed. *)
Definition ahead (ccw : bool) (order : list nat) (routed : nat -> bool) (pos : nat) : list nat :=
  filter (fun x => negb (routed x)) (firstn 5 (circle ccw order pos)).
Definition path_end (ccw : bool) (order : list nat) (routed : nat -> bool) (pos : nat) : nat :=
  let e := nth (Nat.modulo 5 (length order)) (circle ccw order pos) 0%nat in if routed e then 0%nat else e.
(** The length of the path from the depot through [through] to [e]: that of a round trip for which the way
    back from [e] to the depot is free. *)
Definition way_cost (tsp : matrix -> tsp) (D : matrix) (e : nat) (through : list nat) : Z :=
  snd (tsp (fun i j => if (Nat.eqb i 0 && Nat.eqb j e) || (Nat.eqb i e && Nat.eqb j 0) then 0 else D i j) (0%nat :: through ++ [e])).
Definition put_back (k x : nat) (l : list nat) : list nat := map (fun y => if Nat.eqb y x then k else y) l.

(** Both limits are set, and kept. *)
Definition fits_both_limits ceps seps (C L : limit) (cost dem : Z) : Prop :=
  match C, L with
  | Some c, Some l => c <> 0 /\ l <> 0 /\ cost - seps < l /\ dem - ceps <= c
  | _, _ => False
  end.
Section Exchange.
Variables ceps seps : Z.
Variable D : matrix.
Variable d : demands.
Variables C L : limit.
Variable tsp : matrix -> tsp.
Variable R : list nat.
Variable cost : Z.
Variable chain : list nat.
Variable e : nat.
Definition with_one (k x : nat) : list nat := filter (fun y => negb (Nat.eqb y k)) R ++ [x].
Definition with_two (k x z : nat) : list nat := with_one k x ++ [z].
Definition can_take (R' : list nat) : Prop := fits_both_limits ceps seps C L (snd (tsp D (0%nat :: R'))) (demand d R').
(** [x] for [k]: the new route and the path with [k] in place of [x] are together no longer than before. *)
Definition worth_one (k x : nat) : Prop :=
  can_take (with_one k x) /\ In x chain /\
  snd (tsp D (0%nat :: with_one k x)) + way_cost tsp D e (put_back k x chain) <= cost + way_cost tsp D e chain.
(** [x] and [z] for [k]. *)
Definition worth_two (k x z : nat) : Prop :=
  can_take (with_one k x) /\ In x chain /\ can_take (with_two k x z) /\ In z chain /\
  snd (tsp D (0%nat :: with_two k x z)) + way_cost tsp D e (put_back k x (filter (fun y => negb (Nat.eqb y z)) chain)) <= cost + way_cost tsp D e chain.
End Exchange.
(** What the callback answers: a route with the customers [R'], toured by the solver; [inc] are taken in;
    [ign] are not considered again for the route. *)
Definition answers (tsp : tsp) (res : callback_result) (R' inc ign : list nat) : Prop :=
  exists r', res = (r', inc, ign, false) /\ sr_set r' = R' /\ (sr_route r', sr_cost r') = tsp (0%nat :: R').
