(** * Specification vocabulary

    The notions in which the properties are stated.  Nothing here refers to the
    model of the code.  Distances, demands, limits and tolerances are integers
    in an arbitrary unit; nodes are natural numbers and the depot is [0]. *)
From Coq Require Export List ZArith Lia Permutation Bool.
Export ListNotations.
Open Scope Z_scope.

Definition matrix := nat -> nat -> Z.
Definition demands := nat -> Z.

(** A limit ([C] or [L]); [None] or zero mean "not set" (Python truthiness). *)
Definition limit := option Z.

(** Cost of driving along a list of nodes. *)
Fixpoint path_cost (D : matrix) (l : list nat) : Z :=
  match l with
  | a :: ((b :: _) as t) => D a b + path_cost D t
  | _ => 0
  end.

Definition sumZ (l : list Z) : Z := fold_right Z.add 0 l.

(** A route is given by the list of its customers (no depots). *)
Definition route_cost (D : matrix) (r : list nat) : Z := path_cost D (0%nat :: r ++ [0%nat]).
Definition demand (d : demands) (r : list nat) : Z := sumZ (map d r).

(** Total cost of a list of routes. *)
Definition routes_cost (D : matrix) (rs : list (list nat)) : Z := sumZ (map (route_cost D) rs).

(** [x] does not exceed the limit, with tolerance. *)
Definition within (lim : limit) (eps x : Z) : Prop :=
  match lim with
  | Some c => c <> 0 -> x <= c + eps
  | None => True
  end.

Definition customers_only (r : list nat) : Prop := Forall (fun n => n <> 0%nat) r.

(** Giant tour encodings of a list of routes: depot-delimited, and the cyclic one
    (the return to the first depot is implicit). *)
Definition encode (rs : list (list nat)) : list nat := 0%nat :: flat_map (fun r => r ++ [0%nat]) rs.
Definition cyclic (rs : list (list nat)) : list nat := flat_map (fun r => 0%nat :: r) rs.

(** Every customer 1..N-1 is served exactly once. *)
Definition covers (N : nat) (rs : list (list nat)) : Prop :=
  Permutation (concat rs) (seq 1 (N - 1)).

(** Every route satisfies the capacity and the length limit. *)
Definition cap_ok (d : demands) (C : limit) (eps : Z) (rs : list (list nat)) : Prop :=
  Forall (fun r => within C eps (demand d r)) rs.
Definition len_ok (D : matrix) (L : limit) (eps : Z) (rs : list (list nat)) : Prop :=
  Forall (fun r => within L eps (route_cost D r)) rs.

Definition symmetric (D : matrix) : Prop := forall i j, D i j = D j i.
Definition triangle (D : matrix) : Prop := forall i j k, D i k <= D i j + D j k.
Definition nonneg_matrix (D : matrix) : Prop := forall i j, 0 <= D i j.

(** The customers of a node list (depots dropped). *)
Definition customers (l : list nat) : list nat := filter (fun n => negb (Nat.eqb n 0)) l.

(** Keep only the non-empty routes: [filter nonempty rs]. *)
Definition nonempty (r : list nat) : bool := match r with [] => false | _ => true end.

(** Same routes up to direction and order. *)
Definition same_dir (r r' : list nat) : Prop := r' = r \/ r' = rev r.
Definition same_routes (rs rs' : list (list nat)) : Prop :=
  exists fs, Forall2 same_dir rs fs /\ Permutation fs rs'.

(** Oriented: the first customer is not larger than the last one. *)
Definition oriented (r : list nat) : Prop := (hd 0 r <= last r 0)%nat.

(** [w] is the route [r] with or without an explicit depot at either end. *)
Definition depot_wrapped (r w : list nat) : Prop :=
  exists a b, (a = [] \/ a = [0%nat]) /\ (b = [] \/ b = [0%nat]) /\ w = a ++ r ++ b.

(** The route with both depots. *)
Definition wrap (r : list nat) : list nat := 0%nat :: r ++ [0%nat].

(** What a route list entry stands for: None, or a route with or without depots. *)
Definition entry_of (r : list nat) (w : option (list nat)) : Prop :=
  match w with None => r = [] | Some l => depot_wrapped r l end.

(** No two equal nodes in a row. *)
Definition no_repeats (l : list nat) : Prop := forall l1 l2 x, l <> l1 ++ x :: x :: l2.

(** Comparison of (cost, number of routes) pairs under the two objectives. *)
Definition beats (minimize_K : bool) (f1 : Z) (k1 : nat) (f2 : Z) (k2 : nat) : Prop :=
  if minimize_K then (k1 < k2)%nat \/ (k1 = k2 /\ f1 < f2) else f1 < f2.

(** Candidates carry a payload. *)
Definition cbeats {S} mk (c1 c2 : S * Z * nat) : Prop := beats mk (snd (fst c1)) (snd c1) (snd (fst c2)) (snd c2).

