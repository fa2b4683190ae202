(** * From the heuristics to what the command line reports: the property theorems *)
From Verif Require Import Spec Spec_inter Spec_petal Spec_driver PyBase M_cvrp_ops M_psavings M_cli Spec_cli Spec_savings Spec_all P_all Spec_end P_end T_cli T_all.
From Coq Require Import ZifyBool ZifyNat Lia Arith List Permutation.
Import ListNotations.
Local Open Scope Z_scope.

(** ** C120: what the command lines report about the heuristics of the library *)

(** VeRyPy.py, with or without post-optimization: a solution that is reported for a heuristic of the library that was not
    interrupted is said to be feasible, and it is: every customer once, capacity and length kept, also with service
    times; quality and number of routes are its own. *)
Theorem C120_reports : forall eps o run ps algos, 0 <= eps -> (forall op, In op (o_ls o) -> (op <= 3)%nat) ->
  Forall proper_problem ps -> Forall (printable o) ps ->
  (forall p, In p ps -> Spec_all.problem (p_N p) (p_Dc p) (p_d p) (p_C p) (p_L p) eps) ->
  (forall p a, In p ps -> In a algos -> library_call eps p (run a p)) ->
  exists fuel0 reports, Forall2 (job_report eps o run) (until_interrupt (stops o run) (list_prod ps algos)) reports /\
    (forall fuel, (fuel0 <= fuel)%nat -> main eps o run ps algos fuel = (reports, if existsb (stops o run) (list_prod ps algos) then Stopped else AllDone)) /\
    forall file a sol ok q K, In (Solved file a sol ok q K false) reports ->
      ok = true /\ exists p rs, In p ps /\ file = p_file p /\ sol = encode rs /\ Forall (fun r => r <> []) rs /\
        serves_all (p_N p) (p_Dc p) (p_d p) (p_C p) (p_L p) eps rs /\ q = routes_cost (shown_matrix o p) rs /\ K = length rs.
Proof. exact reports_feasible. Qed.
Print Assumptions C120_reports.

(** The command line of a heuristic: the solution printed after n runs is feasible and the best of them. *)
Theorem C120_best_of_n : forall N D Dc d C L eps minimize_K verbosity sols,
  Spec_all.problem N Dc d C L eps -> symmetric D -> D 0%nat 0%nat = 0 -> sols <> [] -> Forall (returned N Dc d C L eps) sols ->
  exists rs, read_and_solve_a_problem N D Dc minimize_K verbosity (map (fun s => Returns (Some s)) sols) =
      (if 0 <=? verbosity then Some (encode rs) else None, Answer (encode rs) (routes_cost D rs) (routes_cost Dc rs)) /\
    serves_all N Dc d C L eps rs /\ passes N Dc d C L eps (encode rs) /\
    forall s rs', In s sols -> s = encode rs' -> covers N rs' -> ~ better_solution minimize_K Dc rs' rs.
Proof. exact best_feasible. Qed.
Print Assumptions C120_best_of_n.

(** Parallel savings, an algorithm that fails, and post-optimization with 2-opt *)
Definition savings_run (a : nat) (p : M_cli.problem) : algo_outcome :=
  match a with
  | 0%nat => match parallel_savings_init 0 0 (p_N p) (p_Dc p) (p_d p) (p_C p) (p_L p) false (clarke_wright_savings (p_N p) (p_Dc p)) with
             | Some s => Returns s
             | None => Raises
             end
  | _ => Raises
  end.
Definition all_problem : M_cli.problem := mkp 0 5 allD allD alld (Some 4) (Some 60).
Example C120_case : proper_problem all_problem /\ printable (mko false false false [0%nat]) all_problem /\
  Spec_all.problem (p_N all_problem) (p_Dc all_problem) (p_d all_problem) (p_C all_problem) (p_L all_problem) 0 /\
  (forall a, library_call 0 all_problem (savings_run a all_problem)) /\
  main 0 (mko false false false [0%nat]) savings_run [all_problem] [0; 1]%nat 40 =
    ([Solved 0 0 [0; 1; 2; 0; 3; 4; 0]%nat true 40 2 false; Unsolved 0 1 false], AllDone).
Proof.
  split; [|split; [right; cbn; lia|split; [exact C104_problem|split; [|vm_compute; reflexivity]]]].
  - destruct C104_problem as [P1 P2 P3 P4 P5 P6 P7 P8]. split; [exact P1|]. split; [exact P3|]. split; [exact P5|]. split; [exact P7|].
    split; [intros c [= <-]; lia|]. split; [intros c [= <-]; lia|]. left. reflexivity.
  - intros [|a]; [|exact I]. right.
    apply (By_parallel_savings 5 allD alld (Some 4) (Some 60) 0 false (clarke_wright_savings 5 allD)); [apply T_psavings.C25_clarke_wright_list|vm_compute; reflexivity].
Qed.
