(** * Specification: what a solution may depend on *)
From Verif Require Import Spec Spec_inter.

(** A route that could be part of a solution: some customers, each once. *)
Definition possible_route (N : nat) (r : list nat) : Prop :=
  r <> [] /\ NoDup r /\ Forall (fun x => 1 <= x < N)%nat r.
