(** * Specification of Tyagi's grouping: nearest neighbour routes, one at a time, with an interchange when
    a route is full *)
From Verif Require Import Spec Spec_inter Spec_nn Spec_rfcs.

(** Finished routes, the route being built with the customer added last, and whether a customer has been put
    back so far. *)
Record ty_state := mkty { ty_done : list (list nat); ty_cur : list nat; ty_prev : nat; ty_back : bool }.

Section Rule.
Variable N : nat.
Variable D : matrix.
Variable d : demands.
Variables C L : limit.
Variables ceps seps : Z.
Variable forbidden : list nat.
Variables ends_only all_positions : bool.

Definition ty_free (s : ty_state) (j : nat) : Prop :=
  (1 <= j < N)%nat /\ ~ In j forbidden /\ ~ In j (concat (ty_done s)) /\ ~ In j (ty_cur s).

(** A free customer and, as long as nobody has been put back, one nearest to [p]. *)
Definition ty_near (s : ty_state) (p j : nat) : Prop :=
  ty_free s j /\ (ty_back s = false -> forall x, ty_free s x -> D p j <= D p x).

(** [r'] is better than [r]: it carries more or, if there is no capacity but a length limit, it is shorter. *)
Definition better (r r' : list nat) : Prop :=
  (limit_set C /\ demand d r < demand d r') \/ (~ limit_set C /\ limit_set L /\ route_cost D r' < route_cost D r).

(** [r'] is [r] with [x] replaced by [y], [x] being the first or the last customer or, with
    [all_positions], any one. *)
Definition replaced (r : list nat) (x y : nat) (r' : list nat) : Prop :=
  exists a b, r = a ++ x :: b /\ r' = a ++ y :: b /\ (all_positions = true \/ a = [] \/ b = []).
Definition interchange (r : list nat) (x y : nat) (r' : list nat) : Prop :=
  replaced r x y r' /\ feasible D d C L ceps seps r' /\ better r r'.

Inductive ty_rule (s : ty_state) : ty_state -> Prop :=
| ty_begin j :
    ty_cur s = [] -> ty_near s 0 j ->
    ty_rule s (mkty (ty_done s) [j] j (ty_back s))
| ty_extend j :
    ty_cur s <> [] -> ty_near s (ty_prev s) j -> feasible D d C L ceps seps (extended_by D ends_only (ty_cur s) j) ->
    ty_rule s (mkty (ty_done s) (extended_by D ends_only (ty_cur s) j) j (ty_back s))
| ty_finish j y :
    ty_cur s <> [] -> ty_near s (ty_prev s) j -> ~ feasible D d C L ceps seps (extended_by D ends_only (ty_cur s) j) ->
    ty_near s (last (ty_cur s) 0%nat) y -> (forall x r', ~ interchange (ty_cur s) x y r') ->
    ty_rule s (mkty (ty_done s ++ [ty_cur s]) [] (ty_prev s) (ty_back s))
| ty_swap j x y r' :
    ty_cur s <> [] -> ty_near s (ty_prev s) j -> ~ feasible D d C L ceps seps (extended_by D ends_only (ty_cur s) j) ->
    ty_near s (last (ty_cur s) 0%nat) y -> interchange (ty_cur s) x y r' ->
    ty_rule s (mkty (ty_done s ++ [r']) [] (ty_prev s) true).

Inductive ty_steps (s : ty_state) : ty_state -> Prop :=
| ty_none : ty_steps s s
| ty_more s1 s2 : ty_steps s s1 -> ty_rule s1 s2 -> ty_steps s s2.

Definition ty_start : ty_state := mkty [] [] 0 false.
Definition ty_routes (s : ty_state) : list (list nat) := ty_done s ++ filter nonempty [ty_cur s].

(** A grouping made by the rule until nobody is left. *)
Definition grouped (rs : list (list nat)) : Prop :=
  exists s, ty_steps ty_start s /\ (forall j, ~ ty_free s j) /\ rs = ty_routes s.
End Rule.

(** ** Which grouping is chosen *)

(** The option select_grouping *)
Inductive grouping := Balanced | MaxDemand | MinPenalty.

(** How groupings are compared; [K]: the number of routes with which the capacity is counted. *)
Definition load (d : demands) (rs : list (list nat)) : Z := sumZ (map (demand d) rs).
(** The number of routes squared times the variance of their demands *)
Definition spread (d : demands) (rs : list (list nat)) : Z :=
  Z.of_nat (length rs) * sumZ (map (fun r => demand d r * demand d r) rs) - load d rs * load d rs.
Definition penalty (D : matrix) (d : demands) (c : Z) (rs : list (list nat)) : Z :=
  sumZ (map (fun r => c - demand d r * route_cost D r) rs).
Definition beats (g : grouping) (D : matrix) (d : demands) (c : Z) (rs1 : list (list nat)) (K1 : nat) (rs2 : list (list nat)) (K2 : nat) : Prop :=
  let n1 := Z.of_nat (length rs1) in
  let n2 := Z.of_nat (length rs2) in
  match g with
  | Balanced => spread d rs1 * (n2 * n2) < spread d rs2 * (n1 * n1) \/
                (spread d rs1 * (n2 * n2) = spread d rs2 * (n1 * n1) /\ load d rs2 * n1 < load d rs1 * n2)
  | MaxDemand => load d rs2 * Z.of_nat K1 < load d rs1 * Z.of_nat K2
  | MinPenalty => penalty D d c rs2 < penalty D d c rs1
  end.

(** With the smallest number of vehicles possible, K, all but one of them full, the last one carries less than
    any one customer's demand. *)
Definition single_possible (N : nat) (d : demands) (c : Z) : Prop :=
  exists K, (K - 1) * c < load d [seq 0 N] <= K * c /\ forall n, (1 <= n < N)%nat -> load d [seq 0 N] - c * (K - 1) < d n.
(** Which customers may get a route of their own. *)
Definition single_candidate (N : nat) (D : matrix) (d : demands) (c : Z) (only_large : bool) (x : nat) : Prop :=
  (1 <= x < N)%nat /\ (only_large = true -> c < 2 * d x /\ exists far, (far < N)%nat /\ 2 * D 0%nat x < D 0%nat far).

(** What is chosen when [first] is the grouping of all customers and [gr x] the grouping of all but [x]: [first],
    unless some route has to serve one customer only (or one does); then the best of [first] and of those
    [gr x] with a route for [x] that need no more routes. *)
Definition chosen_grouping (N : nat) (D : matrix) (d : demands) (c : Z) (only_large : bool) (g : grouping)
    (first : list (list nat)) (gr : nat -> list (list nat)) (chosen : list (list nat)) : Prop :=
  let admissible x := single_candidate N D d c only_large x /\ (S (length (gr x)) <= length first)%nat in
  let better_than x y := beats g D d c (gr x) (S (length (gr x))) (gr y) (S (length (gr y))) in
  let better_than_first x := beats g D d c (gr x) (S (length (gr x))) first (length first) in
  (~ (single_possible N d c \/ exists x, In [x] first) -> chosen = first) /\
  (single_possible N d c \/ (exists x, In [x] first) ->
   (chosen = first /\ forall x, admissible x -> ~ better_than_first x) \/
   (exists x, admissible x /\ chosen = gr x ++ [[x]] /\ better_than_first x /\ forall z, admissible z -> ~ better_than z x)).

(** A TSP solver that does not make a route longer than it is in the order given. *)
Definition shortens (N : nat) (D : matrix) (f : tsp) : Prop :=
  forall l, l <> [] -> NoDup l -> (forall j, In j l -> (1 <= j < N)%nat) ->
    exists l', f (0%nat :: l) = (0%nat :: l' ++ [0%nat], route_cost D l') /\ Permutation l' l /\ route_cost D l' <= route_cost D l.
