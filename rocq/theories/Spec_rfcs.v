(** * Specification of route-first-cluster-second *)
From Verif Require Import Spec.

(** A TSP solver: [f nodes] is a closed tour with its length.  [solver]: on the depot and some
    customers it returns a tour of them from the depot. *)
Definition tsp := list nat -> list nat * Z.
Definition solver (N : nat) (D : matrix) (f : tsp) : Prop :=
  forall l, l <> [] -> NoDup l -> (forall j, In j l -> (1 <= j < N)%nat) ->
    exists l', f (0%nat :: l) = (0%nat :: l' ++ [0%nat], route_cost D l') /\ Permutation l' l.
(** On a closed tour it returns one that is not longer. *)
Definition improver (N : nat) (D : matrix) (f : tsp) : Prop :=
  forall l, l <> [] -> NoDup l -> (forall j, In j l -> (1 <= j < N)%nat) ->
    exists l', f (0%nat :: l ++ [0%nat]) = (0%nat :: l' ++ [0%nat], route_cost D l') /\ Permutation l' l /\ route_cost D l' <= route_cost D l.

(** A tour through the customers, closed or not. *)
Definition giant_tour (N : nat) (tour gt : list nat) : Prop :=
  Permutation tour (seq 1 (N - 1)) /\ (gt = tour \/ gt = tour ++ [hd 0%nat tour]).

(** The tour read from some customer on. *)
Definition rotation (tour l : list nat) : Prop := exists a b, tour = a ++ b /\ l = b ++ a.

(** The route of some consecutive customers: each is added before the depot and the route is then
    improved by [f]. *)
Definition grown (f : tsp) (s : list nat) : list nat * Z :=
  fold_left (fun rc x => f (removelast (fst rc) ++ [x])) s ([0%nat; 0%nat], 0).
Definition grown_cost (f : tsp) (s : list nat) : Z := snd (grown f s).

(** Routes get longer with every customer added. *)
Definition grows (f : tsp) (tour : list nat) : Prop :=
  forall s s' t, rotation tour (s ++ s' ++ t) -> s <> [] -> 0 <= grown_cost f s <= grown_cost f (s ++ s').

(** The route of [s] and those of the segments [s] begins with are within the limits. *)
Definition admissible (d : demands) (C L : limit) (ceps seps : Z) (f : tsp) (s : list nat) : Prop :=
  forall a b, s = a ++ b -> a <> [] -> within C ceps (demand d a) /\ within L seps (grown_cost f a).

(** Partitions of the tour into at least two consecutive segments. *)
Definition partition (d : demands) (C L : limit) (ceps seps : Z) (f : tsp) (tour : list nat) (segs : list (list nat)) : Prop :=
  rotation tour (concat segs) /\ (2 <= length segs)%nat /\ Forall (fun s => s <> []) segs /\ Forall (admissible d C L ceps seps f) segs.
Definition sum_costs (f : tsp) (segs : list (list nat)) : Z := sumZ (map (grown_cost f) segs).

(** Two solvers for which routes grow in a metric: the customers in the given order, and an exact one. *)
Definition inorder (D : matrix) : tsp := fun l => (l ++ [0%nat], path_cost D (l ++ [0%nat])).
Definition exact_solver (N : nat) (D : matrix) (f : tsp) : Prop :=
  forall l p, l <> [] -> NoDup l -> (forall j, In j l -> (1 <= j < N)%nat) -> Permutation p l -> snd (f (0%nat :: l)) <= route_cost D p.
