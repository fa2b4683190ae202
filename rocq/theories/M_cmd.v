(** * Model of the command lines of the heuristics and of the TSP solvers

    cli and tsp_cli of verypy/shared_cli.py.  A command line is the list sys.argv, which is never empty: its first
    entry is the name of the program.  What is printed is left out except where stated; texts are ASCII. *)
From Verif Require Import Spec PyBase M_util M_text M_cli2 M_intra M_rfcs M_tspg M_tspx.
Local Open Scope Z_scope.

(** str.isdigit(), and int() of such a text *)
Definition isdigit (s : text) : bool := match s with [] => false | _ => forallb is_digit s end.
Definition int_of_digits (s : text) : Z := fold_left (fun n c => 10 * n + digit c) s 0.

(** The variables of lines 245-250, with their values there; DEBUG_VERBOSITY is 3 (config.py:11). *)
Record settings := mkset { op_verbosity : Z; op_best_of_n : Z; op_single : bool; op_time : bool; op_log : option text; op_minimize_K : bool }.
Definition default_settings : settings := mkset 3 1 false false None false.

(** One turn of the loop, lines 254-271: [a] is sys.argv[i], [b] sys.argv[i+1].  The warning about an unknown target
    is not modelled. *)
Definition read_option (o : settings) (a b : text) : settings :=
  let o := if text_eqb a (str "-v") && isdigit b
           then mkset (int_of_digits b) (op_best_of_n o) (op_single o) (op_time o) (op_log o) (op_minimize_K o) else o in
  let o := if text_eqb a (str "-n") && isdigit b
           then mkset (op_verbosity o) (int_of_digits b) (op_single o) (op_time o) (op_log o) (op_minimize_K o) else o in
  let o := if text_eqb a (str "-1")
           then mkset (op_verbosity o) (op_best_of_n o) true (op_time o) (op_log o) (op_minimize_K o) else o in
  let o := if text_eqb a (str "-t")
           then mkset (op_verbosity o) (op_best_of_n o) (op_single o) true (op_log o) (op_minimize_K o) else o in
  let o := if text_eqb a (str "-l")
           then mkset (op_verbosity o) (op_best_of_n o) (op_single o) (op_time o) (Some b) (op_minimize_K o) else o in
  if text_eqb a (str "-b")
  then let otarget := lower b in
       if text_eqb otarget (str "cost") || text_eqb otarget (str "c")
       then mkset (op_verbosity o) (op_best_of_n o) (op_single o) (op_time o) (op_log o) false
       else if text_eqb otarget (str "vehicles") || text_eqb otarget (str "k")
       then mkset (op_verbosity o) (op_best_of_n o) (op_single o) (op_time o) (op_log o) true
       else o
  else o.
(** The loop, lines 253-271 *)
Fixpoint read_options (o : settings) (argv : list text) : settings :=
  match argv with
  | a :: ((b :: _) as t) => read_options (read_option o a b) t
  | _ => o
  end.

(** What cli does after that, in this order, lines 276-333: solving a random problem of so many customers, printing
    the usage, solving a file. *)
Inductive action := SolveRandom (n : Z) (o : settings) | PrintUsage | SolveFile (file : text) (o : settings).
Definition asks_help (argv : list text) : bool := existsb (text_eqb (str "-h")) argv || existsb (text_eqb (str "--help")) argv.
Definition cli_actions (look : text -> option fs) (argv : list text) : list action :=
  let o := read_options default_settings argv in
  let problem := last argv [] in
  (if isdigit problem then [SolveRandom (int_of_digits problem) o] else []) ++
  (let files := list_one look problem in
   if match files with [] => true | _ => false end || asks_help argv then [PrintUsage]
   else map (fun f => SolveFile f o) files).
(** An action that raises an exception ends the program: [completes] tells which ones do not. *)
Fixpoint performed (completes : action -> bool) (l : list action) : list action :=
  match l with
  | [] => []
  | a :: t => a :: if completes a then performed completes t else []
  end.
(** cli, lines 243-333: the actions performed *)
Definition cli (look : text -> option fs) (completes : action -> bool) (argv : list text) : list action :=
  performed completes (cli_actions look argv).

(** ** tsp_cli, lines 224-241 *)

(** What the solver does: it returns a tour, or None, with a length (numerator and denominator), or it raises an
    exception. *)
Inductive tsp_outcome := TspTour (sol : list nat) (num den : Z) | TspNone | TspRaises.
(** What is printed: the usage, or a tour and its cost; the assertion of line 239 is after that.  [u]: the distances
    are in units of 1/u. *)
Inductive tsp_cli_end := CliUsage | CliPrints (sol : list nat) (cost : Z) | CliAssertionError (sol : list nat) (cost : Z) | CliRaises.
Definition tsp_cli (look : text -> option fs) (read : text -> option (nat * matrix)) (u : Z)
    (tsp_f : nat -> matrix -> list nat -> tsp_outcome) (argv : list text) : tsp_cli_end :=
  match argv with
  | [_; file] =>
      if isfile look file then
        match read file with
        | None => CliRaises
        | Some (N, D) =>
            match tsp_f N D (seq 0 N) with
            | TspRaises | TspNone => CliRaises
            | TspTour sol num den =>
                let tsp_o := objf sol D in
                if num * u =? tsp_o * den then CliPrints sol tsp_o else CliAssertionError sol tsp_o
            end
        end
      else CliUsage
  | _ => CliUsage
  end.

(** The solvers as their files call tsp_cli.  solve_tsp_ropt: it is still running where this says that it raises an
    exception. *)
Definition ropt_f (eps : Z) (fuel : nat) (N : nat) (D : matrix) (l : list nat) : tsp_outcome :=
  match solve_tsp_ropt eps fuel D l None true true with
  | Some (Some (sol, len)) => TspTour sol len 1
  | _ => TspRaises
  end.
Definition gurobi_f (gurobi : nat -> (nat -> nat -> Z) -> tsp_status) (N : nat) (D : matrix) (l : list nat) : tsp_outcome :=
  match solve_tsp_gurobi gurobi D l with
  | TspReturns (Some sol) len => TspTour sol len 1
  | TspReturns None _ => TspNone
  | _ => TspRaises
  end.
Definition lkh_f (lkh : text -> text) (unit : option Z) (accuracy : Z) (N : nat) (D : matrix) (l : list nat) : tsp_outcome :=
  match solve_tsp_lkh lkh unit accuracy N D l with
  | Ok (sol, (num, den)) => TspTour sol num den
  | Raise _ => TspRaises
  end.
Definition aco_f (aco : text -> text) (unit : option Z) (accuracy : Z) (use_ants : bool) (N : nat) (D : matrix) (l : list nat) : tsp_outcome :=
  match solve_tsp_acotsp aco unit accuracy use_ants N D l with
  | Some (Ok (Some (sol, len))) => TspTour sol len 1
  | _ => TspRaises
  end.
Definition fast_f (eps : Z) (fuel : nat) (gurobi : nat -> (nat -> nat -> Z) -> tsp_status) (lkh : text -> text) (unit : option Z) (accuracy : Z)
    (N : nat) (D : matrix) (l : list nat) : tsp_outcome :=
  solve_tsp_fast (ropt_f eps fuel N D) (gurobi_f gurobi N D) (lkh_f lkh unit accuracy N D) l.
