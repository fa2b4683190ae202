(** * Specification of the insertion criterion of Mole and Jameson (C50) *)
From Verif Require Import Spec.

(** A place (i, u, j): the customer u between i and j. *)
Definition customer (p : nat * nat * nat) : nat := snd (fst p).

(** e(i,u,j) = D(i,u) + D(u,j) - mu D(i,j) with mu = mn/den, times den. *)
Definition detour (den mn : Z) (D : matrix) (p : nat * nat * nat) : Z :=
  let '(i, u, j) := p in den * D i u + den * D u j - mn * D i j.

(** The place with the least detour for its customer. *)
Definition least_detour (den mn : Z) (D : matrix) (cands : list (nat * nat * nat)) (p : nat * nat * nat) : Prop :=
  In p cands /\ forall z, In z cands -> customer z = customer p -> detour den mn D p <= detour den mn D z.

(** Two passes: find the best place of every customer, then take the customer whose lambda D(0,u) - e is greatest. *)
Definition two_pass_choice (den ln mn : Z) (D : matrix) (cands : list (nat * nat * nat)) (p : nat * nat * nat) : Prop :=
  least_detour den mn D cands p /\
  forall y, least_detour den mn D cands y ->
    ln * D 0%nat (customer y) - detour den mn D y <= ln * D 0%nat (customer p) - detour den mn D p.

Definition criterion_at (criterion : nat -> nat -> nat -> Z * Z) (p : nat * nat * nat) : Z * Z :=
  let '(i, u, j) := p in criterion i u j.
