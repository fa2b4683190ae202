(** * Model of verypy/tsp_solvers/tsp_solver_lkh.py, tsp_solver_acotsp.py and tsp_solver_fast.py

    LKH and ACOTSP are programs that are given a TSPLIB file; the first writes a tour file, the second prints tours.
    They are parameters: the text of the problem file goes in and the text of the tour file (or what is printed)
    comes out.  LKH's parameter file (file names, trace level and number of runs) is not modelled.  Distances are
    integers; those of a float matrix are in units of 1/[u], where [unit] is [Some u]; [None] is an integer
    matrix. *)
From Verif Require Import M_text M_io Spec PyBase.
From Verif Require Import M_tspg M_intra M_rfcs.
Local Open Scope Z_scope.

(** sorted(selected_idxs) *)
Fixpoint node_insert (x : nat) (l : list nat) : list nat :=
  match l with
  | [] => [x]
  | y :: t => if (x <=? y)%nat then x :: l else y :: node_insert x t
  end.
Definition node_sort (l : list nat) : list nat := fold_right node_insert [] l.
(** selected_idxs[i], also for negative i *)
Definition py_item (l : list nat) (i : Z) : outcome nat :=
  let k := if i <? 0 then i + Z.of_nat (List.length l) else i in
  if (0 <=? k) && (k <? Z.of_nat (List.length l)) then Ok (nth (Z.to_nat k) l 0%nat) else Raise IndexError.
(** int(D[i,j]) *)
Definition int_of (unit : option Z) (z : Z) : Z := match unit with None => z | Some u => Z.quot z u end.
(** What write_TSPLIB_file writes for a distance: str(D[i,j]), or str(int(D[i,j]*float_accuracy)) of a float matrix
    (tsp_solver_lkh.py, lines 53-60) *)
Definition weight (unit : option Z) (accuracy : Z) (z : Z) : Z := match unit with None => z | Some u => Z.quot (z * accuracy) u end.

(** ** solve_tsp_lkh *)

(** Lines 96-101 *)
Record lkh_state := mklkh { lkh_sol : list nat; lkh_tail : list nat; lkh_obj : Z; lkh_skip : bool; lkh_found : bool }.
Definition lkh_init : lkh_state := mklkh [] [] 0 true false.
(** Lines 102-118.  The length is taken to be an integer, as LKH writes it. *)
Definition lkh_line (selected : list nat) (s : lkh_state) (raw : text) : outcome lkh_state :=
  let l := strip raw in
  do s' <-
    (if text_eqb l (str "EOF") || text_eqb l (str "-1") then Ok (mklkh (lkh_sol s) (lkh_tail s) (lkh_obj s) true (lkh_found s))
     else if contains (str "Length = ") l then
       match parse_int (List.last (M_text.split l) []) with
       | Some z => Ok (mklkh (lkh_sol s) (lkh_tail s) z (lkh_skip s) (lkh_found s))
       | None => Raise ValueError
       end
     else if lkh_skip s then Ok s
     else
       match parse_int l with
       | None => Raise ValueError
       | Some z =>
           do v <- py_item selected (z - 1);
           let tail := if Nat.eqb v 0 then lkh_tail s ++ [0%nat] else lkh_tail s in
           let found := Nat.eqb v 0 || lkh_found s in
           if found then Ok (mklkh (lkh_sol s ++ [v]) tail (lkh_obj s) (lkh_skip s) found)
           else Ok (mklkh (lkh_sol s) (tail ++ [v]) (lkh_obj s) (lkh_skip s) found)
       end);
  if text_eqb l (str "TOUR_SECTION") then Ok (mklkh (lkh_sol s') (lkh_tail s') (lkh_obj s') false (lkh_found s')) else Ok s'.
Fixpoint lkh_loop (selected : list nat) (s : lkh_state) (lines : list text) : outcome lkh_state :=
  match lines with
  | [] => Ok s
  | l :: t => do s' <- lkh_line selected s l; lkh_loop selected s' t
  end.
(** Lines 119-121 *)
Definition lkh_close (s : lkh_state) : outcome (list nat) :=
  let sol := lkh_sol s ++ lkh_tail s in
  if lkh_found s then Ok sol else match sol with [] => Raise IndexError | a :: _ => Ok (sol ++ [a]) end.
(** Lines 23-130.  The length is returned as numerator and denominator. *)
Definition solve_tsp_lkh (lkh : text -> text) (unit : option Z) (accuracy : Z) (N : nat) (D : matrix) (selected : list nat) : outcome (list nat * (Z * Z)) :=
  if (List.length selected <=? 3)%nat then
    match node_sort selected with
    | [] => Raise IndexError
    | a :: t => let sol := (a :: t) ++ [a] in Ok (sol, (path_cost (fun i j => int_of unit (D i j)) sol, 1))
    end
  else
    let problem := write_TSPLIB_file (fun z => print_int (weight unit accuracy z)) false N D [] None None selected in
    do s <- lkh_loop selected lkh_init (readlines (lkh problem));
    do sol <- lkh_close s;
    Ok (sol, (lkh_obj s, match unit with None => 1 | Some _ => accuracy end)).

(** ** solve_tsp_acotsp *)

(** s.replace(p, "") *)
Fixpoint remove_all (p s : text) (skip : nat) : text :=
  match s with
  | [] => []
  | c :: t =>
      match skip with
      | S k => remove_all p t k
      | O => if is_prefix p s then remove_all p t (List.length p - 1) else c :: remove_all p t 0
      end
  end.
Fixpoint parse_ints (l : list text) : outcome (list Z) :=
  match l with
  | [] => Ok []
  | w :: t => match parse_int w with None => Raise ValueError | Some z => do r <- parse_ints t; Ok (z :: r) end
  end.
Fixpoint py_items (l : list nat) (is : list Z) : outcome (list nat) :=
  match is with
  | [] => Ok []
  | i :: t => do v <- py_item l i; do r <- py_items l t; Ok (v :: r)
  end.
(** sol.index(x) *)
Fixpoint index_of (x : nat) (l : list nat) : option nat :=
  match l with
  | [] => None
  | y :: t => if Nat.eqb y x then Some 0%nat else option_map S (index_of x t)
  end.
Definition best_mark : text := str "best solution so far is".
(** Lines 116-123: the tour of a line *)
Definition aco_line (D : matrix) (selected : list nat) (best : option (list nat * Z)) (l : text) : outcome (option (list nat * Z)) :=
  if contains best_mark (firstn 25 l) then
    do is <- parse_ints (M_text.split (remove_all best_mark l 0));
    do sol <- py_items selected is;
    match index_of (hd 0%nat selected) sol with
    | None => Raise ValueError
    | Some k => let sol := skipn k sol ++ firstn k sol ++ [hd 0%nat selected] in Ok (Some (sol, path_cost D sol))
    end
  else Ok best.
Fixpoint aco_loop (D : matrix) (selected : list nat) (best : option (list nat * Z)) (lines : list text) : outcome (option (list nat * Z)) :=
  match lines with
  | [] => Ok best
  | l :: t => do best' <- aco_line D selected best l; aco_loop D selected best' t
  end.
(** Lines 22-132.  [None]: UnboundLocalError in line 98, as only line 87 sets nul_f.  The length is in the units of
    the matrix.  What is looked for in lines 125-129 is not used. *)
Definition solve_tsp_acotsp (aco : text -> text) (unit : option Z) (accuracy : Z) (use_ants : bool) (N : nat) (D : matrix) (selected : list nat) :
    option (outcome (option (list nat * Z))) :=
  if (List.length selected <=? 3)%nat then
    Some (match node_sort selected with
          | [] => Raise IndexError
          | a :: t => let sol := (a :: t) ++ [a] in Ok (Some (sol, path_cost D sol))
          end)
  else if use_ants then None
  else
    let problem := write_TSPLIB_file (fun z => print_int (weight unit accuracy z)) false N D [] None None selected in
    Some (aco_loop D selected None (split_on newline (aco problem))).

(** ** solve_tsp_fast, lines 11-17: the solvers are given as they are called there *)
Definition solve_tsp_fast {A} (ropt gurobi lkh : list nat -> A) (selected : list nat) : A :=
  if (List.length selected <? 5)%nat then ropt selected
  else if (List.length selected <? 20)%nat then gurobi selected
  else lkh selected.

(** The solvers as the heuristics call them for integer distances; the pair is arbitrary where they return no tour. *)
Definition lkh_tsp (lkh : text -> text) (N : nat) (D : matrix) (selected : list nat) : list nat * Z :=
  match solve_tsp_lkh lkh None 1 N D selected with Ok (sol, (len, _)) => (sol, len) | _ => ([], 0) end.
Definition aco_tsp (aco : text -> text) (N : nat) (D : matrix) (selected : list nat) : list nat * Z :=
  match solve_tsp_acotsp aco None 1 false N D selected with Some (Ok (Some r)) => r | _ => ([], 0) end.
Definition fast_tsp (eps : Z) (fuel : nat) (gurobi : nat -> (nat -> nat -> Z) -> tsp_status) (lkh : text -> text) (N : nat) (D : matrix) : list nat -> list nat * Z :=
  solve_tsp_fast (as_tsp (fun l => solve_tsp_ropt eps fuel D l None true true)) (gurobi_tsp gurobi D) (lkh_tsp lkh N D).
