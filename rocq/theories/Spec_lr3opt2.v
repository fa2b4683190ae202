(** * Specification of the Lagrangean heuristic with its default parameters *)
From Verif Require Import Spec Spec_inter.

(** The largest distance, and the distance from a node to the nearest other one *)
Definition largest (N : nat) (D : matrix) (m : Z) : Prop :=
  (exists i j, (i < N)%nat /\ (j < N)%nat /\ D i j = m) /\ forall i j, (i < N)%nat -> (j < N)%nat -> D i j <= m.
Definition nearest (N : nat) (D : matrix) (j : nat) (x : Z) : Prop :=
  (exists i, (i < N)%nat /\ i <> j /\ D i j = x) /\ forall i, (i < N)%nat -> i <> j -> x <= D i j.

(** Some places differ; some place is not shared; every place is shared by two nodes. *)
Definition spread (N : nat) (D : matrix) : Prop := exists i j, (i < N)%nat /\ (j < N)%nat /\ 0 < D i j.
Definition apart (N : nat) (D : matrix) : Prop := exists j, (j < N)%nat /\ forall i, (i < N)%nat -> i <> j -> 0 < D i j.
Definition twins (N : nat) (D : matrix) : Prop := forall j, (j < N)%nat -> exists i, (i < N)%nat /\ i <> j /\ D i j = 0.

(** When the heuristic is known to end: without limits, in a metric with a place that is not shared, and with a
    capacity, a demand and multipliers that reach infinity *)
Definition lagrangean (N : nat) (D : matrix) (d : nat -> Z) (C L : limit) (inf : Z -> bool) : Prop :=
  (~ limit_set C /\ ~ limit_set L) \/
  (triangle D /\ spread N D /\ (limit_set L -> apart N D)) \/
  (limit_set C /\ spread N D /\ (exists n, (n < N)%nat /\ 0 < d n) /\ exists M, forall y, M <= y -> inf y = true).
