(** * Model of the command line interfaces and of CAWLIP savings

    verypy/classic_heuristics/cawlip_savings.py, the solving loops of verypy/shared_cli.py and of
    verypy/VeRyPy.py.  Reading the problem files is modelled in M_io, the command line in M_cmd; logging,
    the wall times and the layout of the printed text are left out. *)
From Verif Require Import Spec PyBase M_util M_cvrp_ops M_routedata M_driver M_psavings.

(** cawlip_savings_init, cawlip_savings.py:29-50: parallel savings, then 2-opt on the single
    routes with LSOPT.BEST_ACCEPT and the driver's default ITEROPT.ALL_ACCEPT.  The outer [None]
    is an exception: also do_local_search(None, ..) is one.  The inner one: out of fuel. *)
Definition cawlip_savings_init ceps seps (N : nat) (D : matrix) (d : demands) (C L : limit) (minimize_K : bool) (fuel : nat)
  : option (option (list nat)) :=
  match parallel_savings_init ceps seps N D d C L minimize_K (clarke_wright_savings N D) with
  | Some (Some sol) => Some (do_local_search seps (library seps D d C L) [0%nat] sol D d false IterAll None fuel)
  | _ => None
  end.

(** What the call of an algorithm does: it returns a solution or None, or it is interrupted with
    or without a solution in the arguments of the exception, or it raises another exception. *)
Inductive algo_outcome := Returns (sol : option (list nat)) | Interrupt (arg : option (list nat)) | Raises.

(** ** read_and_solve_a_problem, shared_cli.py:79-155, and the loop of cli, lines 264-301 *)

(** best_sol, best_f, best_K; best_f is [None] while it is infinite. *)
Record bstate := mkb { b_sol : option (list nat); b_f : option Z; b_K : nat }.

(** is_better_sol (util.py:67-79) where best_f may be infinite but is never None *)
Definition is_better_than_inf (best_f : option Z) (best_K : nat) (sol_f : Z) (sol_K : nat) (minimize_K : bool) : bool :=
  match best_f with
  | Some bf => is_better_sol (Some bf) (Some best_K) (Some sol_f) (Some sol_K) minimize_K
  | None => if minimize_K then Nat.ltb sol_K best_K || Nat.eqb sol_K best_K else true
  end.

(** Lines 129-137: [None] is an exception of normalize_solution. *)
Definition take_solution (Dc : matrix) (minimize_K : bool) (sol : option (list nat)) (st : bstate) : option bstate :=
  match sol with
  | None | Some [] => Some st
  | Some s =>
      match normalize_solution (Giant s) with
      | None => None
      | Some ns =>
          let sol_f := objf ns Dc in
          let sol_K := (count_occ Nat.eq_dec ns 0%nat - 1)%nat in
          Some (if is_better_than_inf (b_f st) (b_K st) sol_f sol_K minimize_K then mkb (Some ns) (Some sol_f) sol_K else st)
      end
  end.

Inductive end_of_runs := RunsDone (st : bstate) | RunsInterrupted (st : bstate) | RunsFailed.

(** The loop over the repeats, lines 110-146; [runs] are the outcomes of the single calls. *)
Fixpoint repeat_runs (Dc : matrix) (minimize_K : bool) (runs : list algo_outcome) (st : bstate) : end_of_runs :=
  match runs with
  | [] => RunsDone st
  | Raises :: _ => RunsFailed
  | Returns sol :: rest =>
      match take_solution Dc minimize_K sol st with
      | None => RunsFailed
      | Some st' => repeat_runs Dc minimize_K rest st'
      end
  | Interrupt arg :: _ =>
      match take_solution Dc minimize_K arg st with
      | None => RunsFailed
      | Some st' => RunsInterrupted st'
      end
  end.

(** What the caller sees, lines 148-155, and the solution whose statistics are printed. *)
Inductive cli_end :=
| Answer (sol : list nat) (f f_c : Z)    (* the tuple returned, without the time *)
| KeyboardInterruptRaised                (* raise KeyboardInterrupt(): no arguments *)
| ExceptionRaised.
Definition print_best (verbosity : Z) (st : bstate) : option (list nat) :=
  if 0 <=? verbosity then match b_sol st with Some (x :: t) => normalize_solution (Giant (x :: t)) | _ => None end else None.
Definition read_and_solve_a_problem (N : nat) (D Dc : matrix) (minimize_K : bool) (verbosity : Z) (runs : list algo_outcome)
  : option (list nat) * cli_end :=
  match repeat_runs Dc minimize_K runs (mkb None None N) with
  | RunsFailed => (None, ExceptionRaised)
  | RunsInterrupted st => (print_best verbosity st, KeyboardInterruptRaised)
  | RunsDone st =>
      (print_best verbosity st,
       match b_sol st with
       | Some sol => Answer sol (objf sol D) (objf sol Dc)
       | None => ExceptionRaised              (* objf(None, D) *)
       end)
  end.

(** ** The main loop of VeRyPy.py, lines 136-280 *)

(** A problem as read from its file; [p_file] stands for the base name.  [p_Dc] is line 165. *)
Record problem := mkp { p_file : nat; p_N : nat; p_D : matrix; p_Dc : matrix; p_d : demands; p_C : limit; p_L : limit }.
Record options := mko { o_simulate : bool; o_minimal : bool; o_show_cost : bool; o_ls : list nat (* 0: 2opt, 1: 3opt *) }.

(** What is reported for one algorithm on one problem: the solution, whether it is feasible, its
    quality and its number of routes, and whether the solving was interrupted. *)
Inductive report :=
| Solved (file algo : nat) (sol : list nat) (is_feasible : bool) (quality : Z) (routes : nat) (interrupted : bool)
| Unsolved (file algo : nat) (interrupted : bool).

Definition shown_matrix (o : options) (p : problem) : matrix := if o_show_cost o then p_Dc p else p_D p.
Definition count_routes (sol : list nat) : nat := (count_occ Nat.eq_dec sol 0%nat - 1)%nat.

Inductive solved_end := NoSolution | Solution (sol : list nat) (q : Z) (K : nat) | SolveFailed | NoFuel.

(** Lines 192-224: normalization, quality and post-optimization (FIRST_ACCEPT, ALL_ACCEPT). *)
Definition improve_solution (eps : Z) (o : options) (p : problem) (sol : option (list nat)) (fuel : nat) : solved_end :=
  match sol with
  | None | Some [] => NoSolution
  | Some s =>
      match normalize_solution (Giant s) with
      | None => SolveFailed
      | Some ns =>
          match recalculate_objective (Giant ns) (shown_matrix o p) with
          | None => SolveFailed
          | Some sol_q =>
              match o_ls o with
              | [] => Solution ns sol_q (count_routes ns)
              | _ :: _ =>
                  match do_local_search eps (library eps (p_D p) (p_d p) (p_C p) (p_L p)) (o_ls o) ns (p_D p) (p_d p)
                                        true IterAll None fuel with
                  | None => NoFuel
                  | Some ls_sol =>
                      match normalize_solution (Giant ls_sol) with
                      | None => SolveFailed
                      | Some nls =>
                          match recalculate_objective (Giant nls) (shown_matrix o p) with
                          | None => SolveFailed
                          | Some ls_q => if ls_q <? sol_q then Solution nls ls_q (count_routes nls)
                                         else Solution nls sol_q (count_routes ns)
                          end
                      end
                  end
              end
          end
      end
  end.

(** instance_data, lines 249-251: the number of routes recorded for a base name. *)
Definition recorded (data : list (nat * nat)) (file : nat) : option nat :=
  option_map snd (find (fun q => Nat.eqb file (fst q)) data).

(** Lines 228-268: the report.  Without the minimal output the tightness is formatted with
    "%.3f", which raises a TypeError if there is no capacity or no route. *)
Definition all_ok (v : option (bool * bool * bool)) : option bool :=
  option_map (fun t => let '(a, b, c) := t in a && b && c) v.
Definition make_report (eps : Z) (o : options) (p : problem) (algo : nat) (sol : list nat) (q : Z) (K : nat) (interrupted : bool)
           (data : list (nat * nat)) : option (report * list (nat * nat)) :=
  match all_ok (validate_solution_feasibility (p_N p) sol (p_Dc p) (p_d p) (p_C p) (p_L p) eps) with
  | None => None
  | Some ok =>
      let r := Solved (p_file p) algo sol ok q K interrupted in
      if o_minimal o then Some (r, data)
      else
        let record_it := match recorded data (p_file p) with None => true | Some k => Nat.ltb K k end in
        let tightness_set := match truthy (p_C p) with Some _ => negb (Nat.eqb K 0) | None => false end in
        if record_it then
          if tightness_set then Some (r, (p_file p, K) :: data) else None
        else Some (r, data)
  end.

Inductive main_end := AllDone | Stopped | Crashed | OutOfFuel.

(** The loop over the algorithms for one problem, lines 167-276.  An algorithm is a number;
    [run algo p] is what its call does. *)
Fixpoint run_algos (eps : Z) (o : options) (run : nat -> problem -> algo_outcome) (p : problem) (algos : list nat) (fuel : nat)
         (data : list (nat * nat)) : list report * main_end * list (nat * nat) :=
  match algos with
  | [] => ([], AllDone, data)
  | a :: rest =>
      let '(sol, interrupted) :=
        if o_simulate o then (None, false)
        else match run a p with
             | Returns s => (s, false)
             | Interrupt arg => (arg, true)
             | Raises => (None, false)
             end in
      match improve_solution eps o p sol fuel with
      | NoFuel => ([], OutOfFuel, data)
      | SolveFailed => ([], Crashed, data)
      | NoSolution =>
          let r := Unsolved (p_file p) a interrupted in
          if interrupted then ([r], Stopped, data)
          else let '(rs, e, data') := run_algos eps o run p rest fuel data in (r :: rs, e, data')
      | Solution s q K =>
          match make_report eps o p a s q K interrupted data with
          | None => ([], Crashed, data)
          | Some (r, data1) =>
              if interrupted then ([r], Stopped, data1)
              else let '(rs, e, data') := run_algos eps o run p rest fuel data1 in (r :: rs, e, data')
          end
      end
  end.

(** The loop over the problem files, lines 136-280. *)
Fixpoint run_problems (eps : Z) (o : options) (run : nat -> problem -> algo_outcome) (ps : list problem) (algos : list nat)
         (fuel : nat) (data : list (nat * nat)) : list report * main_end :=
  match ps with
  | [] => ([], AllDone)
  | p :: rest =>
      match run_algos eps o run p algos fuel data with
      | (rs, AllDone, data') => let '(rs', e) := run_problems eps o run rest algos fuel data' in (rs ++ rs', e)
      | (rs, e, _) => (rs, e)
      end
  end.
Definition main eps o run ps algos fuel : list report * main_end := run_problems eps o run ps algos fuel [].
