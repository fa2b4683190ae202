(** * Specification of nearest neighbour construction *)
From Verif Require Import Spec Spec_inter.

(** Finished routes, routes being built with the customer added last (the empty route: not begun), and
    the route whose turn it is. *)
Record nn_state := mknns { nn_done : list (list nat); nn_open : list (list nat * nat); nn_turn : nat }.

Section Rule.
Variable N : nat.
Variable D : matrix.
Variable d : demands.
Variables C L : limit.
Variables ceps seps : Z.
Variable forbidden : list nat.
Variable ends_only : bool.
(** [first_stop free s]: which customer [s] of the free ones may begin a route. *)
Variable first_stop : (nat -> Prop) -> nat -> Prop.

Definition nn_routes (s : nn_state) : list (list nat) := nn_done s ++ map fst (nn_open s).
(** A customer that is not served yet and may be. *)
Definition free (s : nn_state) (j : nat) : Prop :=
  (1 <= j < N)%nat /\ ~ In j forbidden /\ ~ In j (concat (nn_routes s)).
Definition next_turn (s : nn_state) : nat :=
  if Nat.eqb (S (nn_turn s)) (length (nn_open s)) then 0%nat else S (nn_turn s).

Definition set_nth {A} (k : nat) (x : A) (l : list A) : list A := firstn k l ++ x :: skipn (S k) l.

(** [j] is a free customer nearest to [p]. *)
Definition nearest_to (s : nn_state) (p j : nat) : Prop := free s j /\ forall x, free s x -> D p j <= D p x.

(** The route extended by [j]: at the end or, if allowed and shorter, at the front. *)
Definition extended_by (r : list nat) (j : nat) : list nat :=
  if negb ends_only && (route_cost D (j :: r) <? route_cost D (r ++ [j])) then j :: r else r ++ [j].

Inductive nn_rule (s : nn_state) : nn_state -> Prop :=
| nn_begin p j :
    (nn_turn s < length (nn_open s))%nat -> nth (nn_turn s) (nn_open s) ([], 0%nat) = ([], p) ->
    free s j -> first_stop (free s) j ->
    nn_rule s (mknns (nn_done s) (set_nth (nn_turn s) ([j], j) (nn_open s)) (nn_turn s))
| nn_extend r p j :
    (nn_turn s < length (nn_open s))%nat -> nth (nn_turn s) (nn_open s) ([], 0%nat) = (r, p) -> r <> [] ->
    nearest_to s p j -> feasible D d C L ceps seps (extended_by r j) ->
    nn_rule s (mknns (nn_done s) (set_nth (nn_turn s) (extended_by r j, j) (nn_open s)) (next_turn s))
| nn_finish r p j :
    (nn_turn s < length (nn_open s))%nat -> nth (nn_turn s) (nn_open s) ([], 0%nat) = (r, p) -> r <> [] ->
    nearest_to s p j -> ~ feasible D d C L ceps seps (extended_by r j) ->
    nn_rule s (mknns (nn_done s ++ [r]) (set_nth (nn_turn s) ([], p) (nn_open s)) (nn_turn s)).

Inductive nn_steps (s : nn_state) : nn_state -> Prop :=
| nn_none : nn_steps s s
| nn_more s1 s2 : nn_steps s s1 -> nn_rule s1 s2 -> nn_steps s s2.

Definition nn_start (K : nat) : nn_state := mknns [] (repeat ([], 0%nat) K) 0.
End Rule.

(** How a route is begun: with a free customer closest to the depot, farthest from it, or one of
    the two free customers closest to each other. *)
Definition depot_closest (D : matrix) (fr : nat -> Prop) (s : nat) : Prop := forall x, fr x -> D 0%nat s <= D 0%nat x.
Definition depot_farthest (D : matrix) (fr : nat -> Prop) (s : nat) : Prop := forall x, fr x -> D 0%nat x <= D 0%nat s.
Definition closest_pair (D : matrix) (fr : nat -> Prop) (s : nat) : Prop :=
  (exists x, fr x /\ x <> s) ->
  exists t, fr t /\ t <> s /\ forall a b, fr a -> fr b -> a <> b -> D s t <= D a b.

(** Every node comes first in the list of the nodes sorted by distance from it (ties: by number). *)
Definition self_first (N : nat) (D : matrix) : Prop :=
  forall i j, (i < N)%nat -> (j < N)%nat -> i <> j -> D i i < D i j \/ (D i i = D i j /\ (i < j)%nat).

(** ** A double ended queue, operation by operation *)
Inductive deque_op := PopLeft | PopRight | PeekLeft | PeekRight | Size | Item (i : nat).
(** [Answer None]: IndexError *)
Inductive deque_obs (A : Type) := Answer (x : option A) | Number (n : nat).
Arguments Answer {A}. Arguments Number {A}.
Definition last_of {A} (l : list A) : option A := hd_error (rev l).
Fixpoint deque_run {A} (ops : list deque_op) (l : list A) : list (deque_obs A) :=
  match ops with
  | [] => []
  | PopLeft :: t => Answer (hd_error l) :: deque_run t (tl l)
  | PopRight :: t => Answer (last_of l) :: deque_run t (removelast l)
  | PeekLeft :: t => Answer (hd_error l) :: deque_run t l
  | PeekRight :: t => Answer (last_of l) :: deque_run t l
  | Size :: t => Number (length l) :: deque_run t l
  | Item i :: t => Answer (nth_error l i) :: deque_run t l
  end.
