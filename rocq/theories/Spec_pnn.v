(** * Specification for the automatic choice of the number of emerging routes *)
From Verif Require Import Spec Spec_nn PyBase M_util M_psavings M_nn M_pnn.

(** The nearest neighbour construction with [k] emerging routes ends with the routes [rs]. *)
Definition builds (N : nat) (D : matrix) (d : demands) (C L : limit) (ceps seps : Z) (k : nat) (rs : list (list nat)) : Prop :=
  exists pts fuel0, forall fuel, (fuel0 <= fuel)%nat ->
    nearest_neighbor_init ceps seps N D d C L k NNfarthest false [] fuel = Some (NNok (Some (encode rs)), pts).

(** Given enough fuel the call ends so. *)
Definition comes_to (call : nat -> option wrapped) (w : wrapped) : Prop :=
  exists fuel0, forall fuel, (fuel0 <= fuel)%nat -> call fuel = Some w.
