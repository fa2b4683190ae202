(** * Model of verypy/tsp_solvers/tsp_solver_gurobi.py

    The shortest tour by an integer program whose subtour constraints are added while Gurobi solves it.  Gurobi is
    a parameter.  Values of binary variables are taken to be exact. *)
From Verif Require Import Spec PyBase.
Local Open Scope Z_scope.

(** ** _subtour, lines 34-57 *)

(** Lines 40-42 *)
Definition next_to (edges : list (nat * nat)) (x : nat) : list nat := map snd (filter (fun e => Nat.eqb (fst e) x) edges).
Definition unvisited (visited : list nat) (x : nat) : bool := negb (existsb (Nat.eqb x) visited).
(** Lines 46-52: from [current] to unvisited neighbours, until there is none.  Also returns the nodes visited.
    [None]: still walking *)
Fixpoint walk (edges : list (nat * nat)) (fuel : nat) (visited : list nat) (current : nat) : option (list nat * list nat) :=
  match fuel with
  | O => None
  | S fuel' =>
      let visited' := current :: visited in
      match filter (unvisited visited') (next_to edges current) with
      | [] => Some ([current], visited')
      | y :: _ => option_map (fun r => (current :: fst r, snd r)) (walk edges fuel' visited' y)
      end
  end.
(** Lines 43-56; [total]: sum(costs) so far.  [None]: still looking, or ValueError in line 44 *)
Fixpoint cycles (edges : list (nat * nat)) (n fuel : nat) (visited : list nat) (total : nat) : option (list (list nat)) :=
  match fuel with
  | O => None
  | S fuel' =>
      match find (unvisited visited) (seq 0 n) with
      | None => None
      | Some current =>
          match walk edges (S n) visited current with
          | None => None
          | Some (c, visited') =>
              if (total + length c =? n)%nat then Some [c]
              else option_map (cons c) (cycles edges n fuel' visited' (total + length c))
          end
      end
  end.
(** Line 57: the first of the shortest *)
Fixpoint shortest (cs : list (list nat)) : list nat :=
  match cs with
  | [] => []
  | [c] => c
  | c :: t => let s := shortest t in if (length c <=? length s)%nat then c else s
  end.
Definition subtour (edges : list (nat * nat)) (n : nat) : option (list nat) := option_map shortest (cycles edges n n [] 0).

(** ** The integer program *)

(** Line 83: the variables of (i,j) and (j,i) are the same; [x i j] is the value of the one with j <= i *)
Definition var (x : nat -> nat -> bool) (i j : nat) : bool := x (Nat.max i j) (Nat.min i j).
(** Lines 22 and 113 *)
Definition edge_list (x : nat -> nat -> bool) (n : nat) : list (nat * nat) :=
  flat_map (fun i => map (fun j => (i, j)) (filter (var x i) (seq 0 n))) (seq 0 n).
(** Lines 17-31: the nodes of the constraint that the callback adds when it sees the solution [x] *)
Definition subtour_elim (x : nat -> nat -> bool) (n : nat) : option (list nat) :=
  match subtour (edge_list x n) n with
  | Some tour => if (length tour <? n)%nat then Some tour else None
  | None => None
  end.
(** Lines 28-30: the left hand side of that constraint *)
Fixpoint inside (x : nat -> nat -> bool) (tour : list nat) : nat :=
  match tour with
  | [] => 0
  | i :: t => (length (filter (var x i) t) + inside x t)%nat
  end.
(** Lines 76-82: the objective, with the cost [c i j] for j <= i *)
Definition tsp_obj (n : nat) (c : nat -> nat -> Z) (x : nat -> nat -> bool) : Z :=
  sumZ (map (fun i => sumZ (map (fun j => if x i j then c i j else 0) (seq 0 (S i)))) (seq 0 n)).
Inductive tsp_status := TspSolved (x : nat -> nat -> bool) | TspInfeasible | TspTimeLimit | TspInterrupted.

(** ** solve_tsp_gurobi, lines 59-121 *)
Inductive tsp_result := TspReturns (sol : option (list nat)) (len : Z) | TspGurobiError | TspKeyboardInterrupt | TspAssertionError | TspIndexError.
Definition solve_tsp_gurobi (gurobi : nat -> (nat -> nat -> Z) -> tsp_status) (D : matrix) (selected : list nat) : tsp_result :=
  match selected with
  | [] => TspIndexError
  | first :: _ =>
      let n := if Nat.eqb first (last selected first) then (length selected - 1)%nat else length selected in
      if (n <=? 3)%nat then
        if (1 <? n)%nat then
          let sol := if Nat.eqb first (last selected first) then selected else selected ++ [first] in
          TspReturns (Some sol) (path_cost D sol)
        else TspReturns None 0
      else
        match gurobi n (fun i j => D (nth i selected 0%nat) (nth j selected 0%nat)) with
        | TspTimeLimit => TspGurobiError
        | TspInterrupted => TspKeyboardInterrupt
        | TspInfeasible => TspGurobiError
        | TspSolved x =>
            match subtour (edge_list x n) n with
            | Some tour =>
                if (length tour =? n)%nat
                then TspReturns (Some (map (fun i => nth i selected 0%nat) tour ++ [first])) (tsp_obj n (fun i j => D (nth i selected 0%nat) (nth j selected 0%nat)) x)
                else TspAssertionError
            | None => TspAssertionError
            end
        end
  end.
(** The solver as the heuristics call it; the pair is arbitrary where it does not return a tour. *)
Definition gurobi_tsp (gurobi : nat -> (nat -> nat -> Z) -> tsp_status) (D : matrix) (selected : list nat) : list nat * Z :=
  match solve_tsp_gurobi gurobi D selected with TspReturns (Some sol) len => (sol, len) | _ => ([], 0) end.
