(** * The command line interfaces: the property theorems *)
From Verif Require Import Spec Spec_ls Spec_inter Spec_savings Spec_driver PyBase M_util M_cvrp_ops M_driver M_psavings M_text
     M_cli Spec_cli P_cli P_cli2 P_cli3 M_cli2 Spec_cli2 P_cli4 P_cli5.
From Coq Require Import ZifyBool ZifyNat Lia Arith List Permutation Sorting.Sorted.
Import ListNotations.
Local Open Scope Z_scope.

(** ** C73: CAWLIP savings *)

(** The solution is feasible, each of its routes reorders one of the savings routes without making it longer, and
    none of them can be improved by a 2-opt move. *)
Theorem C73_result : forall ceps seps N D d C L minimize_K,
  (2 <= N)%nat -> 0 <= seps -> symmetric D -> d 0%nat = 0 -> served_alone N D d C L ceps seps ->
  exists rs0 rs fuel0,
    parallel_savings_init ceps seps N D d C L minimize_K (clarke_wright_savings N D) = Some (Some (encode rs0)) /\
    (forall fuel, (fuel0 <= fuel)%nat -> cawlip_savings_init ceps seps N D d C L minimize_K fuel = Some (Some (encode rs))) /\
    covers N rs /\ Forall (fun r => r <> []) rs /\ Forall (feasible D d C L ceps seps) rs /\
    length rs = length rs0 /\ (rs = rs0 \/ routes_cost D rs < routes_cost D rs0) /\
    (forall q, In q rs -> exists r, In r rs0 /\ Permutation r q /\ route_cost D q <= route_cost D r) /\
    (forall r r', In r rs -> two_opt_nbr (wrap r) (wrap r') -> route_cost D r <= route_cost D r' + seps).
Proof. exact cawlip_result. Qed.
Print Assumptions C73_result.

(** Four customers in pairs: 1-2 is the best pair, but 1-3 and 2-4 together are better than 1-2 and 3-4. *)
Definition pairs_D : matrix := fun i j =>
  if Nat.eqb i j then 0 else
  match Nat.min i j, Nat.max i j with
  | 0%nat, _ => 10 | 1%nat, 2%nat => 10 | 1%nat, 3%nat => 11 | 2%nat, 4%nat => 11 | _, _ => 20
  end.
Definition pairs_d : demands := fun i => if Nat.eqb i 0 then 0 else 1.
Example pairs_symmetric : symmetric pairs_D.
Proof. intros i j. unfold pairs_D. now rewrite Nat.eqb_sym, Nat.min_comm, Nat.max_comm. Qed.
Example pairs_alone : served_alone 5 pairs_D pairs_d (Some 2) None 0 0.
Proof. intros i Hi. assert (HC : (i = 1 \/ i = 2 \/ i = 3 \/ i = 4)%nat) by lia. destruct HC as [->|[->|[->| ->]]]; (split; [vm_compute; intros _; discriminate|exact I]). Qed.


(** Five points of a grid, with street distances: 2-opt shortens the savings route. *)
Definition grid_at (i : nat) : Z * Z := match i with 0%nat => (2, 5) | 1%nat => (6, 3) | 2%nat => (4, 4) | 3%nat => (4, 2) | _ => (1, 0) end.
Definition grid_D : matrix := fun i j => Z.abs (fst (grid_at i) - fst (grid_at j)) + Z.abs (snd (grid_at i) - snd (grid_at j)).

Example C73_case : symmetric pairs_D /\ served_alone 5 pairs_D pairs_d (Some 2) None 0 0 /\
  cawlip_savings_init 0 0 5 pairs_D pairs_d (Some 2) None false 40 = Some (Some (encode [[1;2];[3;4]]%nat)) /\
  symmetric grid_D /\ served_alone 5 grid_D pairs_d None None 0 0 /\
  parallel_savings_init 0 0 5 grid_D pairs_d None None false (clarke_wright_savings 5 grid_D) = Some (Some (encode [[2;3;1;4]]%nat)) /\
  cawlip_savings_init 0 0 5 grid_D pairs_d None None false 40 = Some (Some (encode [[2;1;3;4]]%nat)) /\
  route_cost grid_D [2;1;3;4]%nat < route_cost grid_D [2;3;1;4]%nat.
Proof.
  split; [exact pairs_symmetric|]. split; [exact pairs_alone|]. split; [vm_compute; reflexivity|]. split; [intros i j; unfold grid_D; lia|].
  split; [intros i _; split; exact I|]. split; [vm_compute; reflexivity|]. split; [vm_compute; reflexivity|]. vm_compute. reflexivity.
Qed.

(** The 2-opt* moves between two routes that the description promises are not made: two routes remain whose tails can
    be swapped with profit. *)
Theorem C73_two_opt_star_refuted : exists N D d C L, (2 <= N)%nat /\ symmetric D /\ d 0%nat = 0 /\ served_alone N D d C L 0 0 /\
  exists r1 r2 r1' r2', (forall fuel, (40 <= fuel)%nat -> cawlip_savings_init 0 0 N D d C L false fuel = Some (Some (encode [r1; r2]))) /\
    nbr_2optstar D d C L 0 r1 r2 [r1'; r2'] /\ routes_cost D [r1'; r2'] < routes_cost D [r1; r2].
Proof.
  exists 5%nat, pairs_D, pairs_d, (Some 2), None. split; [lia|]. split; [exact pairs_symmetric|]. split; [reflexivity|]. split; [exact pairs_alone|].
  exists [1;2]%nat, [3;4]%nat, [1;3]%nat, [2;4]%nat. split.
  - intros fuel Hf. replace fuel with (40 + (fuel - 40))%nat by lia. generalize (fuel - 40)%nat. intros m. vm_compute. reflexivity.
  - split; [|vm_compute; reflexivity]. exists [1;3]%nat, [2;4]%nat. split; [reflexivity|].
    split; [exists [1]%nat, [2]%nat, [3]%nat, [4]%nat; split; [reflexivity|]; split; [reflexivity|]; left; split; reflexivity|].
    split; (split; [vm_compute; intros _; discriminate|exact I]).
Qed.
Print Assumptions C73_two_opt_star_refuted.

(** A problem without customers is an exception, although the savings phase handles it. *)
Theorem C73_no_customers_refuted : exists D d C L,
  parallel_savings_init 0 0 1 D d C L false (clarke_wright_savings 1 D) = Some None /\
  forall fuel, cawlip_savings_init 0 0 1 D d C L false fuel = None.
Proof. exists pairs_D, pairs_d, None, None. split; [|intros fuel]; reflexivity. Qed.
Print Assumptions C73_no_customers_refuted.

(** ** C74: the best of several runs *)

Theorem C74_best_of_n : forall N D Dc minimize_K, (2 <= N)%nat -> symmetric Dc -> Dc 0%nat 0%nat = 0 ->
  forall verbosity rss, Forall (covers N) rss -> rss <> [] -> symmetric D -> D 0%nat 0%nat = 0 ->
  exists sol, best_written minimize_K Dc rss sol /\
    read_and_solve_a_problem N D Dc minimize_K verbosity (map (fun rs => Returns (Some (encode rs))) rss) =
      (if 0 <=? verbosity then Some sol else None, Answer sol (objf sol D) (objf sol Dc)) /\
    exists rs, In rs rss /\ writes rs sol /\ objf sol D = routes_cost D rs /\ objf sol Dc = routes_cost Dc rs.
Proof. exact best_of_runs. Qed.
Print Assumptions C74_best_of_n.

(** After an interrupt the best of the finished runs and of the interrupted one is printed. *)
Theorem C74_interrupt_partial : forall N D Dc minimize_K, (2 <= N)%nat -> symmetric Dc -> Dc 0%nat 0%nat = 0 ->
  forall verbosity rss arg rest, Forall (covers N) rss ->
  (forall s, arg = Some s -> exists rs, s = encode rs /\ covers N rs) ->
  exists seen, (seen = rss /\ arg = None \/ exists rs, arg = Some (encode rs) /\ covers N rs /\ seen = rss ++ [rs]) /\
    (seen = [] -> read_and_solve_a_problem N D Dc minimize_K verbosity (map (fun rs => Returns (Some (encode rs))) rss ++ Interrupt arg :: rest) =
        (None, KeyboardInterruptRaised)) /\
    (seen <> [] -> exists sol, best_written minimize_K Dc seen sol /\
      read_and_solve_a_problem N D Dc minimize_K verbosity (map (fun rs => Returns (Some (encode rs))) rss ++ Interrupt arg :: rest) =
        (if 0 <=? verbosity then Some sol else None, KeyboardInterruptRaised)).
Proof. exact interrupted_runs. Qed.
Print Assumptions C74_interrupt_partial.

Definition run1 : list (list nat) := [[1;2];[3;4]]%nat.
Definition run2 : list (list nat) := [[1;3];[4;2]]%nat.
Definition run3 : list (list nat) := [[1];[2;4];[3]]%nat.
Example C74_case : Forall (covers 5) [run1; run2; run3] /\ symmetric pairs_D /\
  read_and_solve_a_problem 5 pairs_D pairs_D false 1 (map (fun rs => Returns (Some (encode rs))) [run3; run1; run2; run1]) =
    (Some (encode [[1;3];[2;4]]%nat), Answer (encode [[1;3];[2;4]]%nat) 62 62) /\
  read_and_solve_a_problem 5 pairs_D pairs_D true 1 [Returns (Some (encode run3)); Interrupt (Some (encode run1)); Returns (Some (encode run2))] =
    (Some (encode run1), KeyboardInterruptRaised).
Proof.
  assert (P1 : Permutation [1;3;4;2]%nat [1;2;3;4]%nat).
  { apply NoDup_Permutation; [repeat constructor; cbn; lia|repeat constructor; cbn; lia|]. cbn. lia. }
  assert (P2 : Permutation [1;2;4;3]%nat [1;2;3;4]%nat).
  { apply NoDup_Permutation; [repeat constructor; cbn; lia|repeat constructor; cbn; lia|]. cbn. lia. }
  split; [constructor; [apply Permutation_refl|]; constructor; [exact P1|]; constructor; [exact P2|constructor]|]. split; [exact pairs_symmetric|]. split; vm_compute; reflexivity.
Qed.

(** The warning says that the intermediate solution is returned, but the exception that is raised does not carry it, and
    with a low verbosity it is not printed either. *)
Theorem C74_interrupt_answer_refuted : exists N D Dc rss, (2 <= N)%nat /\ symmetric Dc /\ Dc 0%nat 0%nat = 0 /\ Forall (covers N) rss /\ rss <> [] /\
  (forall verbosity arg rest, snd (read_and_solve_a_problem N D Dc false verbosity (map (fun rs => Returns (Some (encode rs))) rss ++ Interrupt arg :: rest)) <> ExceptionRaised ->
     snd (read_and_solve_a_problem N D Dc false verbosity (map (fun rs => Returns (Some (encode rs))) rss ++ Interrupt arg :: rest)) = KeyboardInterruptRaised) /\
  forall rest, read_and_solve_a_problem N D Dc false (-1) (map (fun rs => Returns (Some (encode rs))) rss ++ Interrupt None :: rest) = (None, KeyboardInterruptRaised).
Proof.
  exists 5%nat, pairs_D, pairs_D, [run1]. split; [lia|]. split; [exact pairs_symmetric|]. split; [reflexivity|].
  split; [constructor; [apply Permutation_refl|constructor]|]. split; [discriminate|]. split.
  - intros v arg rest. unfold read_and_solve_a_problem. cbn [map app].
    remember (repeat_runs pairs_D false (Returns (Some (encode run1)) :: Interrupt arg :: rest) (mkb None None 5)) as r eqn:E.
    destruct r as [st|st|]; [|easy|easy]. exfalso. revert E. cbn [repeat_runs]. destruct (take_solution _ _ _ _) as [st'|]; [|discriminate].
    destruct (take_solution _ _ arg st'); discriminate.
  - intros rest. reflexivity.
Qed.
Print Assumptions C74_interrupt_answer_refuted.

(** ** C75: the main loop *)

(** Every problem is solved with every algorithm, up to an interrupt, and the reports are truthful. *)
Theorem C75_reports : forall eps o, 0 <= eps -> (forall op, In op (o_ls o) -> (op <= 3)%nat) ->
  forall run ps algos,
  Forall proper_problem ps -> (forall p a, In p ps -> In a algos -> proper_outcome (p_N p) (run a p)) -> Forall (printable o) ps ->
  exists fuel0 reports, Forall2 (job_report eps o run) (until_interrupt (stops o run) (list_prod ps algos)) reports /\
    forall fuel, (fuel0 <= fuel)%nat ->
      main eps o run ps algos fuel = (reports, if existsb (stops o run) (list_prod ps algos) then Stopped else AllDone).
Proof. exact main_loop. Qed.
Print Assumptions C75_reports.

Definition pairs_problem (file : nat) (C : limit) : problem := mkp file 5 pairs_D pairs_D pairs_d C None.
Definition pairs_run (a : nat) (p : problem) : algo_outcome :=
  match a with 0%nat => Returns (Some (encode run1)) | 1%nat => Raises | _ => Interrupt (Some (encode [[1];[4;2;3]]%nat)) end.
Example pairs_proper : forall file C, C = None \/ C = Some 2 -> proper_problem (pairs_problem file C).
Proof.
  intros file C HC. split; [cbn; lia|]. split; [exact pairs_symmetric|]. split; [reflexivity|]. split; [reflexivity|]. cbn [p_C p_L pairs_problem].
  split; [intros c; destruct HC as [->| ->]; [easy|intros E; injection E as <-; lia]|]. split; [easy|]. left. reflexivity.
Qed.
Example pairs_outcomes : forall p a, p_N p = 5%nat -> proper_outcome (p_N p) (pairs_run a p).
Proof.
  assert (P : forall rs, Permutation (concat rs) [1;2;3;4]%nat -> proper_solution 5 rs).
  { intros rs H. split.
    - split; [apply (Permutation_NoDup (Permutation_sym H)); repeat constructor; cbn; lia|].
      apply Forall_forall. intros x X. apply (Permutation_in _ H) in X. cbn in X. lia.
    - split; [apply Forall_forall; intros x X; apply (Permutation_in _ H) in X; cbn in X; lia|]. intros X. rewrite X in H. apply Permutation_nil in H. discriminate. }
  intros p a -> s. destruct a as [|[|a]]; cbn [pairs_run found]; intros E; try discriminate; injection E as <-; right.
  - exists run1. split; [reflexivity|]. apply P. apply Permutation_refl.
  - exists [[1];[4;2;3]]%nat. split; [reflexivity|]. apply P. cbn. apply perm_skip. apply NoDup_Permutation; [repeat constructor; cbn; lia|repeat constructor; cbn; lia|]. cbn. lia.
Qed.
Example C75_case : Forall proper_problem [pairs_problem 0 (Some 2); pairs_problem 1 (Some 2)] /\
  main 0 (mko false false false [0%nat]) pairs_run [pairs_problem 0 (Some 2); pairs_problem 1 (Some 2)] [0;1]%nat 40 =
    ([Solved 0 0 (encode run1) true 70 2 false; Unsolved 0 1 false; Solved 1 0 (encode run1) true 70 2 false; Unsolved 1 1 false], AllDone) /\
  main 0 (mko false false false [0%nat]) pairs_run [pairs_problem 0 (Some 2); pairs_problem 1 (Some 2)] [0;2;1]%nat 40 =
    ([Solved 0 0 (encode run1) true 70 2 false; Solved 0 2 (encode [[1];[3;2;4]]%nat) false 71 2 true], Stopped).
Proof. split; [repeat constructor; apply pairs_proper; auto|]. split; vm_compute; reflexivity. Qed.

(** Without a capacity the program crashes instead of reporting a feasible solution, unless the minimal output is asked for. *)
Theorem C75_no_capacity_refuted : exists eps o run p a, 0 <= eps /\ o_minimal o = false /\ proper_problem p /\ p_C p = None /\
  proper_outcome (p_N p) (run a p) /\ found (run a p) <> None /\
  forall fuel, main eps o run [p] [a] fuel = ([], Crashed).
Proof.
  exists 0, (mko false false false []), pairs_run, (pairs_problem 0 None), 0%nat. split; [lia|]. split; [reflexivity|]. split; [apply pairs_proper; auto|].
  split; [reflexivity|]. split; [now apply pairs_outcomes|]. split; [discriminate|]. intros fuel. vm_compute. reflexivity.
Qed.
Print Assumptions C75_no_capacity_refuted.

(** ** C76: the problem files *)

(** The listing ends, and it has exactly the files that are named by the paths or held in their directories, with the
    recursive option at any depth. *)
Theorem C76_files : forall look, tree_view look -> forall paths recursive,
  exists fuel0 l, (forall fuel, (fuel0 <= fuel)%nat -> get_a_problem_file_list look fuel paths recursive = Some l) /\
    forall f, In f l <-> exists p, In p paths /\
      (names_file look p f \/ exists q, (if recursive then subdir look p q else q = p) /\ holds look q f).
Proof. exact file_list. Qed.
Print Assumptions C76_files.

(** A directory: each file once, first the .vrp, then the .tsp and then the .pickle files, each kind in natural order. *)
Theorem C76_directory : forall look, tree_view look -> forall p es fuel, look p = Some (Dir es) -> NoDup (map fst es) ->
  exists l1 l2 l3, get_a_problem_file_list look fuel [p] false = Some (l1 ++ l2 ++ l3) /\ NoDup (l1 ++ l2 ++ l3) /\
    StronglySorted natural_le l1 /\ StronglySorted natural_le l2 /\ StronglySorted natural_le l3 /\
    (forall f, In f l1 -> exists a, f = a ++ str ".vrp") /\ (forall f, In f l2 -> exists a, f = a ++ str ".tsp") /\
    (forall f, In f l3 -> exists a, f = a ++ str ".pickle").
Proof. exact directory_list. Qed.
Print Assumptions C76_directory.

Definition leaf : list (text * fs) := [(str "n10.vrp", File []); (str "N9.vrp", File []); (str "b.tsp", File []); (str ".c.vrp", File []); (str "readme", File [])].
Definition mid : list (text * fs) := [(str "c", Dir leaf)].
Definition top : list (text * fs) := [(str "b", Dir mid); (str "a.pickle", File [])].
Definition disk (p : text) : option fs :=
  if text_eqb p (str "a") then Some (Dir top)
  else if text_eqb p (str "a/b") then Some (Dir mid)
  else if text_eqb p (str "a/b/c") then Some (Dir leaf)
  else if existsb (fun n => text_eqb p (str "a/b/c/" ++ fst n)) leaf || text_eqb p (str "a/a.pickle") then Some (File [])
  else if text_eqb p (str "list.txt") then Some (File (str " a/b/c/b.tsp" ++ [Ascii.ascii_of_nat 10] ++ str "missing.vrp" ++ [Ascii.ascii_of_nat 10]))
  else None.
Example disk_tree : tree_view disk.
Proof.
  intros p es n c E Hn. unfold disk in E.
  destruct (text_eqb_spec p (str "a")) as [->|_]; [injection E as <-; unfold top in Hn; cbn [In] in Hn; destruct Hn as [X|[X|[]]]; injection X as <- <-; reflexivity|].
  destruct (text_eqb_spec p (str "a/b")) as [->|_]; [injection E as <-; unfold mid in Hn; cbn [In] in Hn; destruct Hn as [X|[]]; injection X as <- <-; reflexivity|].
  destruct (text_eqb_spec p (str "a/b/c")) as [->|_].
  { injection E as <-. unfold leaf in Hn. cbn [In] in Hn. destruct Hn as [X|[X|[X|[X|[X|[]]]]]]; injection X as <- <-; vm_compute; reflexivity. }
  destruct (existsb _ leaf || _); [discriminate|]. destruct (text_eqb p (str "list.txt")); discriminate.
Qed.
Example C76_case : tree_view disk /\
  get_a_problem_file_list disk 9 [str "list.txt"; str "a/b/c"] false =
    Some [str "a/b/c/b.tsp"; str "a/b/c/N9.vrp"; str "a/b/c/n10.vrp"; str "a/b/c/b.tsp"] /\
  get_a_problem_file_list disk 9 [str "a/b"] true = Some [str "a/b/c/N9.vrp"; str "a/b/c/n10.vrp"; str "a/b/c/b.tsp"].
Proof. split; [exact disk_tree|]. split; vm_compute; reflexivity. Qed.

(** With the recursive option a file two or more directories down is listed, and hence solved, more than once. *)
Theorem C76_recursive_twice_refuted : exists look p, tree_view look /\
  forall fuel, (5 <= fuel)%nat -> exists l, get_a_problem_file_list look fuel [p] true = Some l /\
    count_occ (list_eq_dec Ascii.ascii_dec) l (str "a/b/c/b.tsp") = 2%nat.
Proof.
  exists disk, (str "a"). split; [exact disk_tree|]. intros fuel Hf. eexists. split.
  - replace fuel with (5 + (fuel - 5))%nat by lia. generalize (fuel - 5)%nat. intros m. vm_compute. reflexivity.
  - vm_compute. reflexivity.
Qed.
Print Assumptions C76_recursive_twice_refuted.

(** ** C77: the algorithms *)

(** Exactly the algorithms named, in any case, or in a named group, are run; unknown names select nothing. *)
Theorem C77_selection : forall has_gurobi names a, (forall n, In n names -> lower n <> str "mj76-si") ->
  (In a (get_algorithms has_gurobi names) <-> exists n, In n names /\ selects has_gurobi n a).
Proof. exact algorithms_selected. Qed.
Print Assumptions C77_selection.

Theorem C77_once : forall has_gurobi n, NoDup (get_algorithms has_gurobi [n]).
Proof. exact selected_once. Qed.
Print Assumptions C77_once.

(** The forbidden algorithms are left out, and no others. *)
Theorem C77_forbidden : forall has_gurobi active forbid, (forall n, In n forbid -> n <> str "mj76-si") ->
  (forall n, In n forbid -> a_name n) ->
  exists l, algos_to_run has_gurobi active forbid = Some l /\
    forall a, In a l <-> In a (get_algorithms has_gurobi active) /\ ~ exists n, In n forbid /\ called a n.
Proof. exact forbidden_left_out. Qed.
Print Assumptions C77_forbidden.

Example C77_case : get_algorithms false [str "Petal"; str "ClarkeWright"; str "nonsense"; str "cw"] = [str "ps"; str "ps"] /\
  length (get_algorithms true [str "ALL"]) = 21%nat /\ length (get_algorithms false [str "all"]) = 18%nat /\
  algos_to_run false [str "sn"; str "pn"; str "ty"] [str "nn"; str "tyagi"] = Some [str "pn"] /\
  a_name (str "nn") /\ called (str "sn") (str "nn").
Proof.
  split; [vm_compute; reflexivity|]. split; [vm_compute; reflexivity|]. split; [vm_compute; reflexivity|]. split; [vm_compute; reflexivity|].
  assert (X : called (str "sn") (str "nn")).
  { exists "sn"%string, ["sn"; "nn"; "snn"]%string, false, false. split; [unfold catalogue; cbn [In]; tauto|]. split; [reflexivity|]. right; left; reflexivity. }
  split; [|exact X]. right; right; right. now exists (str "sn").
Qed.

(** One of the names of Mole and Jameson's algorithm runs another one. *)
Theorem C77_mole_jameson_refuted : exists n, called (str "mj") n /\ ~ called (str "si") n /\
  forall has_gurobi, get_algorithms has_gurobi [n] = [str "si"].
Proof.
  exists (str "mj76-si"). split; [|split].
  - exists "mj"%string, ["mj"; "mj76-si"; "molejameson"; "molejamesoninsertion"]%string, true, false. split; [unfold catalogue; cbn [In]; tauto|]. split; [reflexivity|]. right; left; reflexivity.
  - intros (x & ns & c & g & Hq & E & Hn). apply str_inj in E. subst x. unfold catalogue in Hq. cbn [In] in Hq.
    repeat match type of Hq with _ \/ _ => destruct Hq as [Hq|Hq]; [injection Hq as; try discriminate|] end; try easy.
    subst. cbn in Hn. repeat destruct Hn as [Hn|Hn]; try discriminate; easy.
  - intros g. vm_compute. reflexivity.
Qed.
Print Assumptions C77_mole_jameson_refuted.

(** Forbidding an algorithm by its name in capital letters, with which it can be selected, is an exception. *)
Theorem C77_forbid_case_refuted : exists n, get_algorithms false [n] = [str "ps"] /\
  forall has_gurobi active, algos_to_run has_gurobi active [n] = None.
Proof. exists (str "PS"). split; [vm_compute; reflexivity|]. intros g active. unfold algos_to_run. replace (forbidden_abbrs [str "PS"]) with (@None (list text)) by (vm_compute; reflexivity). reflexivity. Qed.
Print Assumptions C77_forbid_case_refuted.

(** Forbidding a group forbids nothing, although the group selects algorithms. *)
Theorem C77_forbid_group_refuted : exists n, a_name n /\ get_algorithms false [n] <> [] /\
  forall active has_gurobi, algos_to_run has_gurobi active [n] = Some (get_algorithms has_gurobi active).
Proof.
  exists (str "classical"). split; [right; left; reflexivity|]. split; [vm_compute; discriminate|]. intros active g. unfold algos_to_run.
  replace (forbidden_abbrs [str "classical"]) with (Some [str "classical"]) by (vm_compute; reflexivity). cbn [option_map]. f_equal.
  assert (H : forall a, In a (get_algorithms g active) -> negb (existsb (text_eqb a) [str "classical"]) = true).
  { intros a Ha. destruct (algo_in_catalogue g active a Ha) as (x & ns & c & gu & Hq & ->). cbn [existsb]. rewrite Bool.orb_false_r.
    destruct (text_eqb_spec (str x) (str "classical")) as [E|_]; [|reflexivity]. exfalso. apply str_inj in E. subst x.
    unfold catalogue in Hq. cbn [In] in Hq. repeat destruct Hq as [Hq|Hq]; try discriminate; easy. }
  revert H. generalize (get_algorithms g active) as l. induction l as [|a l IH]; intros H; [reflexivity|]. cbn [filter]. rewrite (H a (or_introl eq_refl)).
  f_equal. apply IH. intros; apply H; now right.
Qed.
Print Assumptions C77_forbid_group_refuted.
