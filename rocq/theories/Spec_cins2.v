(** * Specification of cheapest insertion: how routes are begun *)
From Verif Require Import Spec Spec_cins M_cins.

Definition begins_with (D : matrix) (strain : nat -> nat -> nat -> Z * Z) (m : init_method) : (nat -> Prop) -> list nat -> Prop :=
  match m with Farthest => begin_farthest D | Closest => begin_closest D | Strain => begin_strain D strain end.

Definition metric (D : matrix) : Prop := (forall i, D i i = 0) /\ symmetric D /\ triangle D.
(** Every route is begun with one customer: the farthest or closest one, or the one with the best strain
    of Mole and Jameson (lm = ln/den, mm = mn/den) when distances are metric. *)
Definition single_seeds (D : matrix) (m : init_method) (strain : nat -> nat -> nat -> Z * Z) : Prop :=
  m <> Strain \/ exists den ln mn, den > 0 /\ ln >= 0 /\ mn >= 0 /\ metric D /\ strain = param_criteria den ln mn D.
