(** * Specification of the ordered set histories *)
From Verif Require Import Spec M_util.

(** The mathematical set after the same history, as a predicate. *)
Definition set_step (m : nat -> Prop) (o : ods_op) : nat -> Prop :=
  match o with
  | OAdd e => fun k => k = e \/ m k
  | ORemove e => fun k => k <> e /\ m k
  | ODiff c => fun k => ~ In k c /\ m k
  | OGet _ => m
  end.
Definition set_run (c : list nat) (ops : list ods_op) : nat -> Prop := fold_left set_step ops (fun k => In k c).

(** Histories on which the cache stays right: [add] is only called with an element that is
    not in the set, and the set is not indexed while it is empty. *)
Fixpoint ods_careful (s : ods) (ops : list ods_op) : Prop :=
  match ops with
  | [] => True
  | o :: t =>
      match o with
      | OAdd e => ~ In e (ods_iter s)
      | OGet _ => ods_iter s <> []
      | _ => True
      end /\ ods_careful (ods_step s o) t
  end.

