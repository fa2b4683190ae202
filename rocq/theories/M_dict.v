(** * Model of examples/solve_from_data_dict.py: solving a problem given as a dictionary

    The algorithms are called through their functions call_init; time and printing are left out, the rows
    printed are the result.  The assertions are on (no -O). *)
From Verif Require Import Spec PyBase M_cvrp_ops M_cli.

(** Data, lines 19-27: the parts used.  [dd_points] is the number of coordinates, len(points). *)
Record data_dict := mkdd { dd_matrix : list (list Z); dd_demands : list Z; dd_capacities : list Z; dd_points : nat }.

(** D[i,j] and d[i] *)
Definition dd_D (x : data_dict) : matrix := fun i j => nth j (nth i (dd_matrix x) []) 0.
Definition dd_d (x : data_dict) : demands := fun i => nth i (dd_demands x) 0.
Definition dd_N (x : data_dict) : nat := length (dd_matrix x).

(** check_symmetric, lines 42-44: for integers, differences below the tolerance are zero. *)
Definition check_symmetric (x : data_dict) : bool :=
  let n := dd_N x in
  forallb (fun i => forallb (fun j => dd_D x i j =? dd_D x j i) (range 0 n)) (range 0 n).

(** Lines 47-62: the capacity, or [None] for the IndexError of an empty list of capacities and for a failing assertion.
    Without rows D has one dimension only and D.shape[1] raises. *)
Definition convert (x : data_dict) : option Z :=
  match dd_capacities x with
  | [] => None
  | C :: _ =>
      if forallb (fun vC => vC =? C) (dd_capacities x)
         && (Nat.eqb (dd_points x) (length (dd_demands x)) && Nat.eqb (length (dd_demands x)) (dd_N x) && negb (Nat.eqb (dd_N x) 0)
             && forallb (fun row => Nat.eqb (length row) (dd_N x)) (dd_matrix x))
         && check_symmetric x
      then Some C else None
  end.

(** The loop, lines 67-81.  A row is algorithm, objective, K and solution.  The bare except of the first attempt also
    catches an interrupt.  An exception anywhere else ends the script; the rows already printed remain.
    [None]: an algorithm does not end. *)
Inductive script_end := Finished | Failed.
Definition dict_row (D : matrix) (sol : option (list nat)) : option (Z * nat * list nat) :=
  match sol with
  | None => None                                             (* normalize_solution(None) raises *)
  | Some sol =>
      match normalize_solution (Giant sol) with
      | None => None
      | Some ns => match recalculate_objective (Giant ns) D with
                   | None => None
                   | Some obj => Some (obj, (count_occ Nat.eq_dec ns 0%nat - 1)%nat, ns)
                   end
      end
  end.
Definition dict_attempt (call : bool -> nat -> option algo_outcome) (fuel : nat) : option algo_outcome :=
  match call true fuel with
  | Some (Returns sol) => Some (Returns sol)
  | Some _ => call false fuel
  | None => None
  end.
Fixpoint dict_rows {A} (D : matrix) (call : A -> bool -> nat -> option algo_outcome) (algos : list A) (fuel : nat)
  : option (list (A * (Z * nat * list nat)) * script_end) :=
  match algos with
  | [] => Some ([], Finished)
  | a :: t =>
      match dict_attempt (call a) fuel with
      | None => None
      | Some (Returns sol) =>
          match dict_row D sol with
          | None => Some ([], Failed)
          | Some r => match dict_rows D call t fuel with
                      | None => None
                      | Some (rows, e) => Some ((a, r) :: rows, e)
                      end
          end
      | Some _ => Some ([], Failed)
      end
  end.

(** The whole script; [call a C minimize_K] is algo_f(points, D, d, C, None, None, "GEO", False, minimize_K). *)
Definition solve_from_data_dict {A} (x : data_dict) (call : A -> Z -> bool -> nat -> option algo_outcome) (algos : list A) (fuel : nat)
  : option (list (A * (Z * nat * list nat)) * script_end) :=
  match convert x with
  | None => Some ([], Failed)
  | Some C => dict_rows (dd_D x) (fun a => call a C) algos fuel
  end.
