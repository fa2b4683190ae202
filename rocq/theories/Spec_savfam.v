(** * Specification for the savings variants built on parallel savings *)
From Coq Require Import Sorted.
From Verif Require Import Spec Spec_inter Spec_savings.

(** Larger value first; for equal values the closer pair, then the larger first and the larger second
    customer. *)
Definition outranks (a b : Z * Z * nat * nat) : Prop :=
  let '(s, x, i, j) := a in
  let '(s', x', i', j') := b in
  s > s' \/ s = s' /\ (x > x' \/ x = x' /\ ((i > i')%nat \/ i = i' /\ (j > j')%nat)).

(** [l] ranks all pairs of customers i < j by [value]: every pair is there once. *)
Definition ranking (N : nat) (D : matrix) (value : nat -> nat -> Z) (l : list (Z * Z * nat * nat)) : Prop :=
  StronglySorted outranks l /\
  forall s x i j, In (s, x, i, j) l <-> (1 <= i < j)%nat /\ (j < N)%nat /\ s = value i j /\ x = - D i j.

(** Clarke and Wright's saving of a pair. *)
Definition saved (D : matrix) (i j : nat) : Z := D i 0%nat + D 0%nat j - D i j.

(** Gaskell's two criteria.  The mean distance in lambda is total / N^2; the value is multiplied by N^2. *)
Definition total (N : nat) (D : matrix) : Z :=
  sumZ (map (fun i => sumZ (map (D i) (seq 0 N))) (seq 0 N)).
Definition lambda_value (N : nat) (D : matrix) (i j : nat) : Z :=
  saved D i j * (total N D + Z.of_nat N * Z.of_nat N * (Z.abs (D 0%nat i - D 0%nat j) - D i j)).
Definition pi_value (D : matrix) (i j : nat) : Z := saved D i j - D i j.

(** Paessens' saving with g and f given in tenths, multiplied by ten. *)
Definition paessens_value (D : matrix) (g f : Z) (i j : nat) : Z :=
  10 * (D i 0%nat + D 0%nat j) - g * D i j + f * Z.abs (D i 0%nat - D 0%nat j).

(** The four parameter pairs strategy M4 starts with, in tenths. *)
Definition m4_start (g f : Z) : Prop :=
  g = 10 /\ f = 1 \/ g = 10 /\ f = 5 \/ g = 14 /\ f = 0 \/ g = 14 /\ f = 5.
(** One tenth away in one of the two parameters. *)
Definition next_to (g f g' f' : Z) : Prop := Z.abs (g' - g) + Z.abs (f' - f) = 1.

(** The value of a pair in a suppression round: nothing if the pair was the first of an earlier round
    or if it saves nothing. *)
Definition first_of (i j : nat) (l : list (Z * Z * nat * nat)) : bool :=
  match l with [] => false | (_, _, a, b) :: _ => Nat.eqb a i && Nat.eqb b j end.
Definition suppressed_value (D : matrix) (earlier : list (list (Z * Z * nat * nat))) (i j : nat) : Z :=
  if existsb (first_of i j) earlier then 0 else Z.max 0 (saved D i j).
