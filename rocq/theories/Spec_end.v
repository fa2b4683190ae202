(** * Specification: calls of the heuristics of the library *)
From Verif Require Import Spec M_cli Spec_cli Spec_all.

(** What a call does: the library's heuristics return such solutions, or none, or they raise; an interrupted call may bring any solution without mistakes. *)
Definition library_call (eps : Z) (p : M_cli.problem) (out : algo_outcome) : Prop :=
  match out with
  | Returns (Some s) => s = [] \/ returned (p_N p) (p_Dc p) (p_d p) (p_C p) (p_L p) eps s
  | Interrupt _ => proper_outcome (p_N p) out
  | _ => True
  end.
