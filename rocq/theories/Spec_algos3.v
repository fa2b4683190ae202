(** * Specification for the heuristics that need Gurobi *)
From Verif Require Import Spec M_petal.

(** A solver of set covering programs that is given the time it needs *)
Definition answers (gurobi : scp -> status) : Prop := forall p, gurobi p <> TimeLimit /\ gurobi p <> Interrupted.
