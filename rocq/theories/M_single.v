(** * Model of examples/single_solve_example.py: a file is read, solved by parallel savings and its routes are printed

    Numbers are in units of 1/q; [parse_float] is None for words that float() refuses and for numbers that are no multiple
    of 1/q.  The capacity is read as an integer, so it is q times as many units. *)
From Verif Require Import Spec PyBase M_util M_dist M_psavings M_text M_io.

Fixpoint all_some {A} (l : list (option A)) : option (list A) :=
  match l with
  | [] => Some []
  | Some a :: t => option_map (cons a) (all_some t)
  | None :: _ => None
  end.

Section Single.
Variable parse_float : text -> option Z.
Variable geo : Z -> Z.
Variable other : text -> point -> point -> Z.
Variables q eps : Z.

(** calculate_D as read_TSPLIB_CVRP calls it, cvrp_io.py:73-105; a missing point raises. *)
Definition matrix_of (ewt : option text) (pts : list (option point)) : option (nat * matrix) :=
  match all_some pts with
  | Some pts => calculate_D other q pts ewt
  | None => None
  end.

(** Lines 18-26: the routes printed, one per line, or [None] if reading or solving raises.  A demand that is None raises
    as soon as it is added. *)
Definition single_solve (file : text) : option (list (list nat)) :=
  match read_TSPLIB_CVRP parse_float 0 geo matrix_of file with
  | Ok P =>
      match pb_D P, match pb_demands P with Some l => all_some l | None => None end with
      | Some (N, D), Some d =>
          match parallel_savings_init eps eps N D (fun i => nth i d 0) (option_map (Z.mul q) (pb_C P)) None false (clarke_wright_savings N D) with
          | Some (Some sol) => Some (sol2routes sol)
          | _ => None
          end
      | _, _ => None
      end
  | Raise _ => None
  end.
End Single.
