(** * Specification for distances between points in the plane

    Points have coordinates that are multiples of 1/q; the square of the Euclidean distance of two
    points is [square]/q^2.  A number [a] (in units of 1/q) is at least, or at most, the distance. *)
From Verif Require Import Spec.

Definition square (a b : Z * Z) : Z := (fst b - fst a) ^ 2 + (snd b - snd a) ^ 2.
Definition at_least (a : Z) (p p' : Z * Z) : Prop := 0 <= a /\ square p p' <= a ^ 2.
Definition at_most (a : Z) (p p' : Z * Z) : Prop := a < 0 \/ a ^ 2 <= square p p'.

(** [k] (in whole units) is the distance rounded up, down or to the nearest *)
Definition rounded_up (q k : Z) (p p' : Z * Z) : Prop :=
  at_least (q * k) p p' /\ forall k', at_least (q * k') p p' -> k <= k'.
Definition rounded_down (q k : Z) (p p' : Z * Z) : Prop :=
  at_most (q * k) p p' /\ forall k', at_most (q * k') p p' -> k' <= k.
(** the distance, doubled, is between 2k-1 and 2k+1 *)
Definition rounded (q k : Z) (p p' : Z * Z) : Prop :=
  let double (x : Z * Z) := (2 * fst x, 2 * snd x) in
  at_most (q * (2 * k - 1)) (double p) (double p') /\ at_least (q * (2 * k + 1)) (double p) (double p').

(** TSPLIB's pseudo-Euclidean distance: the least integer that is not below sqrt((dx^2+dy^2)/10) *)
Definition tsplib_att (q k : Z) (p p' : Z * Z) : Prop :=
  (0 <= k /\ square p p' <= 10 * (q * k) ^ 2) /\
  forall k', 0 <= k' -> square p p' <= 10 * (q * k') ^ 2 -> k <= k'.

(** The triangle inequality, with a slack *)
Definition almost_triangle (slack : Z) (D : matrix) (n : nat) : Prop :=
  forall i j k, (i < n)%nat -> (j < n)%nat -> (k < n)%nat -> D i j <= D i k + D k j + slack.
