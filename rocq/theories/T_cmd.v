(** * The command lines of the heuristics and of the TSP solvers: C116 and C117 *)
From Verif Require Import Spec PyBase M_util M_text M_cli M_cli2 M_intra M_rfcs M_tspg M_tspx M_cmd
  Spec_cli2 Spec_rfcs Spec_tspg Spec_tspx Spec_io Spec_cmd P_base P_rfcs3 P_tspg P_tspg3 P_tspg4 P_tspx P_tspx2 P_tspx3 P_tspx4 P_tspx5 P_cmd P_cmd2 P_cmd3.
From Coq Require Import ZifyBool ZifyNat Lia Arith List Permutation.
Import ListNotations.
Local Open Scope Z_scope.

(** ** C116: the command line of a heuristic *)

(** A file, a list of files or a folder: exactly its problem files are solved, with the settings that were given last. *)
Theorem C116_files_partial : forall look completes argv gs x, tree_view look -> command_line argv gs x -> no_help argv -> ~ number x ->
  (exists f, names_file look x f \/ holds look x f) -> (forall f o, completes (SolveFile f o) = true) ->
  exists o files, as_given gs o /\ cli look completes argv = map (fun f => SolveFile f o) files /\
    (forall f, In f files <-> names_file look x f \/ holds look x f) /\
    (has_ext (str ".txt") x = false -> (forall es, look x = Some (Dir es) -> NoDup (map fst es)) -> NoDup files).
Proof. exact cli_solves. Qed.
Print Assumptions C116_files_partial.

(** A number: a random problem of that size is solved with the settings that were given last; then the usage is printed. *)
Theorem C116_random_partial : forall look completes argv gs x, tree_view look -> command_line argv gs x -> number x ->
  (forall f, ~ names_file look x f /\ ~ holds look x f) -> (forall n o, completes (SolveRandom n o) = true) ->
  exists o n, as_given gs o /\ value x n /\ cli look completes argv = [SolveRandom n o; PrintUsage].
Proof. exact cli_random_problem. Qed.
Print Assumptions C116_random_partial.

(** Help: the usage is printed and no file is solved. *)
Theorem C116_help_partial : forall look completes argv, In (str "-h") argv \/ In (str "--help") argv ->
  (forall f o, ~ In (SolveFile f o) (cli look completes argv)) /\
  ((forall n o, completes (SolveRandom n o) = true) -> In PrintUsage (cli look completes argv)).
Proof. exact cli_help. Qed.
Print Assumptions C116_help_partial.

(** Neither a problem nor a number at the end: only the usage is printed. *)
Theorem C116_no_problem_partial : forall look completes argv, tree_view look -> ~ number (last argv []) ->
  (forall f, ~ names_file look (last argv []) f /\ ~ holds look (last argv []) f) -> cli look completes argv = [PrintUsage].
Proof. exact cli_nothing. Qed.
Print Assumptions C116_no_problem_partial.

Example C116_case :
  let gs := [Verbosity (str "1"); Single; Vehicles (str "K"); LogFile (str "out.log"); Runs (str "012"); Verbosity (str "5"); Cost (str "Cost"); Vehicles (str "k")] in
  let argv := str "ps.py" :: flat_map written gs ++ [str "E-n22.vrp"] in
  command_line argv gs (str "E-n22.vrp") /\ no_help argv /\ ~ number (str "E-n22.vrp") /\ names_file one_file (str "E-n22.vrp") (str "E-n22.vrp") /\
  cli one_file (fun _ => true) argv = [SolveFile (str "E-n22.vrp") (mkset 5 12 true false (Some (str "out.log")) true)].
Proof.
  split; [|split; [|split; [|split]]].
  - exists (str "ps.py"). split; [cbn; intuition discriminate|]. split; [|reflexivity].
    repeat (apply Forall_cons; [first [apply isdigit_number; reflexivity | exact I | cbn; intuition discriminate]|]). apply Forall_nil.
  - split; cbn; intuition discriminate.
  - rewrite <- isdigit_number. discriminate.
  - exists []. split; [reflexivity|]. cbn. split; [left; reflexivity|reflexivity].
  - reflexivity.
Qed.
Example C116_random_case : cli one_file (fun _ => true) (map (fun s => str s) ["ps.py"; "-t"; "20"])%string =
  [SolveRandom 20 (mkset 3 1 false true None false); PrintUsage].
Proof. reflexivity. Qed.
Example C116_help_case : cli one_file (fun _ => true) (map (fun s => str s) ["ps.py"; "--help"; "E-n22.vrp"])%string = [PrintUsage].
Proof. reflexivity. Qed.
Example C116_no_problem_case : cli one_file (fun _ => true) (map (fun s => str s) ["ps.py"; "-1"])%string = [PrintUsage].
Proof. reflexivity. Qed.

(** "-v -1", which the functions take for silence, does not set the verbosity: the -1 is taken for the option. *)
Theorem C116_negative_verbosity_refuted :
  ~ (forall z, op_verbosity (read_options default_settings [str "ps.py"; str "-v"; print_int z; str "E-n22.vrp"]) = z /\
               op_single (read_options default_settings [str "ps.py"; str "-v"; print_int z; str "E-n22.vrp"]) = false).
Proof. intros H. destruct (H (-1)) as [H1 _]. vm_compute in H1. discriminate. Qed.
Print Assumptions C116_negative_verbosity_refuted.
Example C116_negative_verbosity_case : read_options default_settings (map (fun s => str s) ["ps.py"; "-v"; "-1"; "E-n22.vrp"])%string = mkset 3 1 true false None false.
Proof. reflexivity. Qed.

(** Without a problem something may be solved: the number of an option is taken for a number of customers. *)
Theorem C116_no_problem_refuted :
  ~ (forall look completes prog gs, ~ In prog option_names -> Forall proper gs -> (forall p, look p = None) ->
       cli look completes (prog :: flat_map written gs) = [PrintUsage]).
Proof.
  intros H. specialize (H (fun _ => None) (fun _ => true) (str "ps.py") [Runs (str "5")]). vm_compute in H.
  discriminate H; [intuition discriminate|repeat constructor; try discriminate|reflexivity].
  intros c [<-|[]]. exists 5%nat. split; [lia|reflexivity].
Qed.
Print Assumptions C116_no_problem_refuted.

(** Help does not keep a random problem from being solved. *)
Theorem C116_help_refuted :
  ~ (forall look completes argv, In (str "-h") argv -> cli look completes argv = [PrintUsage]).
Proof. intros H. specialize (H (fun _ => None) (fun _ => true) [str "ps.py"; str "-h"; str "20"]). vm_compute in H. discriminate H. auto. Qed.
Print Assumptions C116_help_refuted.

(** Zero runs are accepted, and end in an exception. *)
Theorem C116_zero_runs_refuted : exists argv gs, command_line argv gs (str "E-n22.vrp") /\
  let o := read_options default_settings argv in
  forall N D Dc sol, snd (read_and_solve_a_problem N D Dc (op_minimize_K o) (op_verbosity o) (repeat (M_cli.Returns (Some sol)) (Z.to_nat (op_best_of_n o)))) = ExceptionRaised.
Proof.
  exists (str "ps.py" :: flat_map written [Runs (str "0")] ++ [str "E-n22.vrp"]), [Runs (str "0")]. split.
  - exists (str "ps.py"). split; [cbn; intuition discriminate|]. split; [|reflexivity]. apply Forall_cons; [apply isdigit_number; reflexivity|apply Forall_nil].
  - intros o N D Dc sol. reflexivity.
Qed.
Print Assumptions C116_zero_runs_refuted.

(** ** C117: the command line of a TSP solver *)

(** Given a problem of two nodes or more, each solver prints a tour of all nodes from the first one, with its cost. *)
Theorem C117_ropt : forall look read prog file content N D eps, look file = Some (File content) -> read file = Some (N, D) -> (2 <= N)%nat -> 0 <= eps -> symmetric D ->
  exists fuel0, forall fuel, (fuel0 <= fuel)%nat -> exists l, Permutation l (seq 1 (N - 1)) /\
    tsp_cli look read 1 (ropt_f eps fuel) [prog; file] = CliPrints (0%nat :: l ++ [0%nat]) (route_cost D l).
Proof. exact ropt_cli. Qed.
Print Assumptions C117_ropt.
Theorem C117_gurobi : forall look read prog file content N D gurobi, look file = Some (File content) -> read file = Some (N, D) -> (2 <= N)%nat ->
  tsp_honest gurobi -> tsp_patient gurobi -> symmetric D ->
  exists l, Permutation l (seq 1 (N - 1)) /\ (forall p, Permutation p (seq 1 (N - 1)) -> route_cost D l <= route_cost D p) /\
    tsp_cli look read 1 (gurobi_f gurobi) [prog; file] = CliPrints (0%nat :: l ++ [0%nat]) (route_cost D l).
Proof. exact gurobi_cli. Qed.
Print Assumptions C117_gurobi.
Theorem C117_lkh_partial : forall look read prog file content N D lkh accuracy, look file = Some (File content) -> read file = Some (N, D) -> (2 <= N)%nat ->
  lkh_writes_tours lkh -> symmetric D -> (forall i, D i i = 0) ->
  exists l, Permutation l (seq 1 (N - 1)) /\
    (lkh_optimal lkh -> forall p, Permutation p (seq 1 (N - 1)) -> route_cost D l <= route_cost D p) /\
    tsp_cli look read 1 (lkh_f lkh None accuracy) [prog; file] = CliPrints (0%nat :: l ++ [0%nat]) (route_cost D l).
Proof. exact lkh_cli. Qed.
Print Assumptions C117_lkh_partial.
Theorem C117_acotsp : forall look read prog file content N D aco accuracy, look file = Some (File content) -> read file = Some (N, D) -> (2 <= N)%nat ->
  aco_prints_tours aco -> symmetric D -> (forall i, D i i = 0) ->
  exists l, Permutation l (seq 1 (N - 1)) /\
    tsp_cli look read 1 (aco_f aco None accuracy false) [prog; file] = CliPrints (0%nat :: l ++ [0%nat]) (route_cost D l).
Proof. exact aco_cli. Qed.
Print Assumptions C117_acotsp.
Theorem C117_fast_partial : forall look read prog file content N D eps gurobi lkh accuracy, look file = Some (File content) -> read file = Some (N, D) -> (2 <= N)%nat ->
  0 <= eps -> tsp_honest gurobi -> tsp_patient gurobi -> lkh_writes_tours lkh -> symmetric D -> (forall i, D i i = 0) ->
  exists fuel0, forall fuel, (fuel0 <= fuel)%nat -> exists l, Permutation l (seq 1 (N - 1)) /\
    tsp_cli look read 1 (fast_f eps fuel gurobi lkh None accuracy) [prog; file] = CliPrints (0%nat :: l ++ [0%nat]) (route_cost D l).
Proof. exact fast_cli. Qed.
Print Assumptions C117_fast_partial.
(** Anything but the name of one file: the usage. *)
Theorem C117_usage : forall look read u f argv, ~ (exists prog file content, argv = [prog; file] /\ look file = Some (File content)) ->
  tsp_cli look read u f argv = CliUsage.
Proof. exact usage_cli. Qed.
Print Assumptions C117_usage.
Example C117_case :
  let read := fun _ => Some (4%nat, Dsq) in
  tsp_cli one_file read 1 (ropt_f 0 20) [str "tsp_solver_ropt.py"; str "E-n22.vrp"] = CliPrints [0; 1; 2; 3; 0]%nat 80 /\
  tsp_cli one_file read 1 (gurobi_f try_tours) [str "tsp_solver_gurobi.py"; str "E-n22.vrp"] = CliPrints [0; 1; 2; 3; 0]%nat 80 /\
  tsp_cli one_file read 1 (ropt_f 0 20) [str "tsp_solver_ropt.py"] = CliUsage.
Proof. repeat split; vm_compute; reflexivity. Qed.

(** For float distances the solvers that use LKH print a tour and then fail: the length LKH computed is not the cost. *)
Theorem C117_float_refuted :
  ~ (forall look read prog file content N D lkh u accuracy, look file = Some (File content) -> read file = Some (N, D) -> (2 <= N)%nat ->
       lkh_writes_tours lkh -> 0 < u -> 0 < accuracy -> symmetric D -> (forall i, D i i = 0) ->
       exists sol cost, tsp_cli look read u (lkh_f lkh (Some u) accuracy) [prog; file] = CliPrints sol cost).
Proof.
  intros H. destruct (H one_file (fun _ => Some (4%nat, fun i j => if Nat.eqb i j then 0 else 1)) [] (str "E-n22.vrp") [] 4%nat (fun i j => if Nat.eqb i j then 0 else 1) try_lkh 3 1000)
    as (sol & cost & E); try reflexivity; try lia.
  - apply optimal_writes, try_lkh_optimal.
  - intros i j. now rewrite Nat.eqb_sym.
  - intros i. now rewrite Nat.eqb_refl.
  - unfold tsp_cli, lkh_f in E. change (seq 0 4) with [0; 1; 2; 3]%nat in E. rewrite lkh_float_case4 in E. discriminate.
Qed.
Print Assumptions C117_float_refuted.
Example C117_float_case : tsp_cli one_file (fun _ => Some (4%nat, fun i j => if Nat.eqb i j then 0 else 1)) 3 (lkh_f try_lkh (Some 3) 1000) [str "tsp_solver_lkh.py"; str "E-n22.vrp"] =
  CliAssertionError [0; 1; 2; 3; 0]%nat 4.
Proof. unfold tsp_cli, lkh_f. change (seq 0 4) with [0; 1; 2; 3]%nat. rewrite lkh_float_case4. reflexivity. Qed.

(** A problem with one node: Gurobi's solver returns no tour, and the program fails. *)
Theorem C117_one_node_refuted :
  ~ (forall look read prog file content D gurobi, look file = Some (File content) -> read file = Some (1%nat, D) -> tsp_honest gurobi -> tsp_patient gurobi -> symmetric D ->
       exists sol cost, tsp_cli look read 1 (gurobi_f gurobi) [prog; file] = CliPrints sol cost).
Proof.
  intros H. destruct (H one_file (fun _ => Some (1%nat, fun _ _ => 0)) [] (str "E-n22.vrp") [] (fun _ _ => 0) try_tours) as (sol & cost & E); try reflexivity.
  - exact try_tours_honest.
  - intros n c; unfold try_tours; destruct (n =? 0)%nat; [split; discriminate|]; destruct (n <? 3)%nat; split; discriminate.
  - intros i j. reflexivity.
  - vm_compute in E. discriminate E.
Qed.
Print Assumptions C117_one_node_refuted.
