(** * Specification for interrupts in the savings variants *)
From Verif Require Import Spec Spec_savings M_psavings M_savfam M_savint.

(** No interrupt is caught by parallel savings in the runs before run [k]. *)
Definition none_caught (stops : nat -> option stop) (k : nat) : Prop :=
  forall t j, (t < k)%nat -> stops t <> Some (In_savings j).

(** The savings list that the (k+1)-th call of the suppression savings function returns. *)
Fixpoint kth_savings (N : nat) (D : matrix) (k : nat) sup cache : option (list saving) :=
  match suppression_function N D sup cache with
  | None => None
  | Some (c, s) => match k with O => Some c | S k' => kth_savings N D k' s c end
  end.
