(** * Specification of the petal algorithm *)
From Verif Require Import Spec Spec_inter Spec_rfcs M_petal.

(** A route through different customers that keeps the limits *)
Definition petal_route (N : nat) (D : matrix) (d : demands) (C L : limit) (eps : Z) (r : list nat) : Prop :=
  r <> [] /\ NoDup r /\ (forall x, In x r -> (1 <= x < N)%nat) /\ feasible D d C L eps eps r.

(** Nobody is served twice, nobody else is served and the limits are kept; empty routes are possible. *)
Definition serves_some (N : nat) (D : matrix) (d : demands) (C L : limit) (eps : Z) (rs : list (list nat)) : Prop :=
  NoDup (concat rs) /\ (forall x, In x (concat rs) -> (1 <= x < N)%nat) /\ Forall (feasible D d C L eps eps) rs.
(** Everybody is served exactly once, within the limits; empty routes are possible. *)
Definition serves_all (N : nat) (D : matrix) (d : demands) (C L : limit) (eps : Z) (rs : list (list nat)) : Prop :=
  covers N rs /\ Forall (feasible D d C L eps eps) rs.

(** What is expected of the integer program solver: an optimal answer meets the constraints and no other that
    does is cheaper, and "infeasible" is only said when nothing meets them.  It may run out of time or be
    interrupted.  [quicksum]: what the sum of line 400 evaluates to for given values of the variables. *)
Definition honest (quicksum : list bool -> Z) (N : nat) (gurobi : scp -> status) : Prop := forall p,
  match gurobi p with
  | Optimal x => satisfies quicksum N p x = true /\ forall y, satisfies quicksum N p y = true -> objective p x <= objective p y
  | Infeasible => forall y, satisfies quicksum N p y = false
  | TimeLimit | Interrupted => True
  | OtherStatus => False
  end.
Definition uninterrupted (gurobi : scp -> status) : Prop := forall p, gurobi p <> Interrupted.

(** The [k] customers met first by a sweep in the order [order] that starts at position [s] *)
Definition arc (order : list nat) (s k : nat) : list nat := firstn k (skipn s order ++ firstn s order).
(** Adding customers one at a time gets to those [k] with every route within the limits. *)
Definition swept (D : matrix) (d : demands) (C L : limit) (eps : Z) (f : list nat -> list nat * Z) (order : list nat) (s k : nat) : Prop :=
  (s < length order)%nat /\ (1 <= k <= length order)%nat /\
  forall j, (1 <= j <= k)%nat -> within C eps (demand d (arc order s j)) /\ within L eps (snd (f (0%nat :: arc order s j))).

(** A second solver answers as the first wherever the first is not interrupted. *)
Definition same_but_interrupts (g g' : scp -> status) : Prop := forall p, g p <> Interrupted -> g' p = g p.
