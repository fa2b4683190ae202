(** What it means to pick seed customers well, independent of the model. *)
From Coq Require Import ZArith Arith List Bool Permutation.
From Verif Require Import Spec PyBase.
Import ListNotations.
Open Scope Z_scope.

(** A node needs more than half of the capacity *)
Definition over_half (d : nat -> Z) (C : Z) (i : nat) : Prop := C < 2 * d i.

(** A customer of a problem with [N] nodes *)
Definition customer (N i : nat) : Prop := (1 <= i < N)%nat.

(** How far a node is from the depot and the seeds so far: from the depot alone
    its distance, otherwise the sum of the roots of the distances (the depot
    counts once, also when it is a seed) *)
Definition remoteness (D : matrix) (root : Z -> Z) (seeds : list nat) (j : nat) : Z :=
  match seeds with
  | [] => D 0%nat j
  | _ => sumZ (map (fun i => root (D i j)) (nodup Nat.eq_dec (0%nat :: seeds)))
  end.

(** [picks] come one by one from the nodes satisfying [P], and each has, when
    it is picked, the largest weighted remoteness among all nodes satisfying
    [P] that are not seeds yet *)
Inductive most_remote_first (D : matrix) (root : Z -> Z) (weight : nat -> Z)
  (P : nat -> Prop) : list nat -> list nat -> Prop :=
| picked_none seeds : most_remote_first D root weight P seeds []
| picked_one seeds i picks :
    P i -> ~ In i seeds ->
    (forall j, P j -> ~ In j seeds ->
       remoteness D root seeds j * weight j <= remoteness D root seeds i * weight i) ->
    most_remote_first D root weight P (seeds ++ [i]) picks ->
    most_remote_first D root weight P seeds (i :: picks).

(** The seeds of the thoroughfare method come in three groups: all nodes [a]
    satisfying [P] before any of [b] (satisfying [Q]) *)
Definition all_first (P : nat -> Prop) (a b : list nat) : Prop :=
  b <> [] -> forall i, P i -> In i a.
