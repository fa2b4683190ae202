(** * Specification of cheapest insertion *)
From Verif Require Import Spec Spec_inter.

(** Finished routes, routes being built, and the route whose turn it is. *)
Record ci_state := mkci { ci_done : list (list nat); ci_open : list (list nat); ci_turn : nat }.
Definition ci_routes (s : ci_state) : list (list nat) := ci_open s ++ ci_done s.
Definition replace {A} (k : nat) (x : A) (l : list A) : list A := firstn k l ++ x :: skipn (S k) l.

(** [j] put at position [p] of the route, and the nodes it then has before and after it. *)
Definition insert_at (p j : nat) (r : list nat) : list nat := firstn p r ++ j :: skipn p r.
Definition node_before (p : nat) (r : list nat) : nat := nth p (0%nat :: r) 0%nat.
Definition node_after (p : nat) (r : list nat) : nat := nth p (r ++ [0%nat]) 0%nat.

(** Lexicographic comparison *)
Definition pref_le (a b : Z * Z * Z) : Prop :=
  let '(a1, a2, a3) := a in let '(b1, b2, b3) := b in
  a1 < b1 \/ (a1 = b1 /\ (a2 < b2 \/ (a2 = b2 /\ a3 <= b3))).

Section Rule.
Variable N : nat.
Variable D : matrix.
Variable d : demands.
Variables C L : limit.
Variables ceps seps : Z.
Variable minimize_K : bool.
(** [strain i u j]: how good it is to insert [u] between [i] and [j], and the secondary criterion *)
Variable strain : nat -> nat -> nat -> Z * Z.
(** [first_stops fr r]: the customers [r] of the free ones may begin a route. *)
Variable first_stops : (nat -> Prop) -> list nat -> Prop.

(** A customer that is not served yet. *)
Definition ci_free (rs : list (list nat)) (j : nat) : Prop := (1 <= j < N)%nat /\ ~ In j (concat rs).
Definition extra_cost (r : list nat) (p j : nat) : Z := route_cost D (insert_at p j r) - route_cost D r.
(** [j] may be inserted at position [p] of [r]: the limits are kept and, unless the number of routes
    is to be minimized, a route of its own would not be cheaper. *)
Definition admissible (rs : list (list nat)) (r : list nat) (p j : nat) : Prop :=
  ci_free rs j /\ (p <= length r)%nat /\ feasible D d C L ceps seps (insert_at p j r) /\
  (minimize_K = true \/ extra_cost r p j <= route_cost D [j]).
(** Higher strain first, then the smaller secondary criterion, then the larger saving. *)
Definition preference (r : list nat) (p j : nat) : Z * Z * Z :=
  let '(st, second) := strain (node_before p r) j (node_after p r) in (- st, second, extra_cost r p j - route_cost D [j]).
Definition best_insertion (rs : list (list nat)) (r : list nat) (p j : nat) : Prop :=
  admissible rs r p j /\ forall q i, admissible rs r q i -> pref_le (preference r p j) (preference r q i).
Definition full (rs : list (list nat)) (r : list nat) : Prop := forall p j, ~ admissible rs r p j.

Definition turn_after (s : ci_state) : nat := if Nat.eqb (S (ci_turn s)) (length (ci_open s)) then 0%nat else S (ci_turn s).

Inductive ci_rule (s : ci_state) : ci_state -> Prop :=
| ci_insert r p j :
    nth_error (ci_open s) (ci_turn s) = Some r -> best_insertion (ci_routes s) r p j ->
    ci_rule s (mkci (ci_done s) (replace (ci_turn s) (insert_at p j r) (ci_open s)) (turn_after s))
| ci_finish r b :
    nth_error (ci_open s) (ci_turn s) = Some r -> full (ci_routes s) r -> first_stops (ci_free (ci_routes s)) b ->
    ci_rule s (mkci (ci_done s ++ [r]) (replace (ci_turn s) b (ci_open s)) (turn_after s))
| ci_insert_finish r p j b :
    nth_error (ci_open s) (ci_turn s) = Some r -> best_insertion (ci_routes s) r p j ->
    let rs := replace (ci_turn s) (insert_at p j r) (ci_open s) ++ ci_done s in
    full rs (insert_at p j r) -> first_stops (ci_free rs) b ->
    ci_rule s (mkci (ci_done s ++ [insert_at p j r]) (replace (ci_turn s) b (ci_open s)) (turn_after s)).

Inductive ci_steps (s : ci_state) : ci_state -> Prop :=
| ci_none : ci_steps s s
| ci_more s1 s2 : ci_steps s s1 -> ci_rule s1 s2 -> ci_steps s s2.

(** Routes begun one after the other. *)
Inductive begun : list (list nat) -> Prop :=
| begun_none : begun []
| begun_one rs b : begun rs -> first_stops (ci_free rs) b -> begun (rs ++ [b]).

(** The routes come about by the rule. *)
Definition built_by_rule (K : nat) (rs : list (list nat)) : Prop :=
  exists b s, length b = K /\ begun b /\ ci_steps (mkci [] b 0) s /\ (forall j, ~ ci_free (ci_routes s) j) /\ rs = ci_routes s.
End Rule.

(** How routes are begun: with the free customer farthest from the depot, closest to it, or the pair (or
    single customer i = j) that is best by the strain of inserting i between the depot and j. *)
Definition begin_farthest (D : matrix) (fr : nat -> Prop) (b : list nat) : Prop :=
  exists i, b = [i] /\ fr i /\ forall x, fr x -> D 0%nat x <= D 0%nat i.
Definition begin_closest (D : matrix) (fr : nat -> Prop) (b : list nat) : Prop :=
  exists i, b = [i] /\ fr i /\ forall x, fr x -> D 0%nat i <= D 0%nat x.
Definition begin_strain (D : matrix) (strain : nat -> nat -> nat -> Z * Z) (fr : nat -> Prop) (b : list nat) : Prop :=
  exists i j, (b = if Nat.eqb i j then [i] else [i; j]) /\ (i <= j)%nat /\ fr i /\ fr j /\
    forall x y, fr x -> fr y -> (x <= y)%nat ->
      fst (strain 0%nat x y) < fst (strain 0%nat i j) \/
      (fst (strain 0%nat x y) = fst (strain 0%nat i j) /\ D i j <= D x y).
