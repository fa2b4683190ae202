(** * What the command lines of the heuristics and of the TSP solvers do *)
From Verif Require Import Spec PyBase M_util M_text M_cli2 M_intra M_rfcs M_tspg M_tspx M_cmd Spec_cli2 Spec_rfcs Spec_cmd P_base P_cli4 P_cmd.
From Coq Require Import ZifyBool ZifyNat Lia Arith List Permutation.
Import ListNotations.
Local Open Scope Z_scope.

Lemma listed look x : tree_view look -> forall f, In f (list_one look x) <-> names_file look x f \/ holds look x f.
Proof.
  intros HT f. destruct (file_list look HT [x] false) as (fuel0 & l & E & H). specialize (E fuel0 (Nat.le_refl _)).
  cbn in E. rewrite app_nil_r in E. injection E as <-. rewrite H. split.
  - intros (p & [<-|[]] & [Hn|(q & -> & Hh)]); auto.
  - intros Hf. exists x. split; [now left|]. destruct Hf as [Hn|Hh]; [now left|right; exists x; auto].
Qed.
Lemma listed_once look x : tree_view look -> has_ext (str ".txt") x = false -> (forall es, look x = Some (Dir es) -> NoDup (map fst es)) ->
  NoDup (list_one look x).
Proof.
  intros HT Ht Hd. destruct (look x) as [[content|es]|] eqn:E.
  - unfold list_one. rewrite E. change ext_txt with (str ".txt"). rewrite Ht. destruct (_ || _)%bool; repeat constructor. intros [].
  - destruct (directory_list look HT x es 0%nat E (Hd es eq_refl)) as (l1 & l2 & l3 & H & HN & _). cbn in H. rewrite app_nil_r in H.
    injection H as H. now rewrite H.
  - unfold list_one. rewrite E. constructor.
Qed.

Lemma cli_solves look completes argv gs x : tree_view look -> command_line argv gs x -> no_help argv -> ~ number x ->
  (exists f, names_file look x f \/ holds look x f) -> (forall f o, completes (SolveFile f o) = true) ->
  exists o files, as_given gs o /\ cli look completes argv = map (fun f => SolveFile f o) files /\
    (forall f, In f files <-> names_file look x f \/ holds look x f) /\
    (has_ext (str ".txt") x = false -> (forall es, look x = Some (Dir es) -> NoDup (map fst es)) -> NoDup files).
Proof.
  intros HT (prog & Hp & Hg & ->) Hh Hx (f & Hf) Hc. set (argv := prog :: flat_map written gs ++ [x]) in *.
  exists (read_options default_settings argv), (list_one look x). split; [now apply read_as_given|]. split; [|split; [now apply listed|now apply listed_once]].
  assert (EL : last argv [] = x) by apply last_problem. unfold cli, cli_actions. rewrite EL. rewrite no_help_asked by exact Hh.
  destruct (isdigit x) eqn:Ed; [apply isdigit_number in Ed; contradiction|]. apply (listed look x HT) in Hf.
  destruct (list_one look x) as [|f0 fs]; [destruct Hf|]. cbn [app orb]. apply all_performed. intros a Ha. apply in_map_iff in Ha. destruct Ha as (y & <- & _). apply Hc.
Qed.
Lemma no_files look x : tree_view look -> (forall f, ~ names_file look x f /\ ~ holds look x f) -> list_one look x = [].
Proof.
  intros HT H. destruct (list_one look x) as [|f t] eqn:E; [reflexivity|]. exfalso. assert (Hf : In f (list_one look x)) by (rewrite E; now left).
  apply (listed look x HT) in Hf. destruct (H f). tauto.
Qed.
Lemma cli_random_problem look completes argv gs x : tree_view look -> command_line argv gs x -> number x ->
  (forall f, ~ names_file look x f /\ ~ holds look x f) -> (forall n o, completes (SolveRandom n o) = true) ->
  exists o n, as_given gs o /\ value x n /\ cli look completes argv = [SolveRandom n o; PrintUsage].
Proof.
  intros HT (prog & Hp & Hg & ->) Hx Hf Hc. set (argv := prog :: flat_map written gs ++ [x]) in *.
  exists (read_options default_settings argv), (int_of_digits x). split; [now apply read_as_given|]. split; [now apply number_value|].
  assert (EL : last argv [] = x) by apply last_problem. unfold cli, cli_actions. rewrite EL. rewrite (proj2 (isdigit_number x) Hx), no_files by assumption.
  cbn. rewrite Hc. now destruct (completes PrintUsage).
Qed.
Lemma cli_help look completes argv : In (str "-h") argv \/ In (str "--help") argv ->
  (forall f o, ~ In (SolveFile f o) (cli look completes argv)) /\
  ((forall n o, completes (SolveRandom n o) = true) -> In PrintUsage (cli look completes argv)).
Proof.
  intros H. unfold cli, cli_actions. rewrite (help_asked argv H), orb_true_r. split.
  - intros f o Hi. destruct (performed_prefix completes ((if isdigit (last argv []) then [SolveRandom (int_of_digits (last argv [])) (read_options default_settings argv)] else []) ++ [PrintUsage])) as (r & E).
    assert (Hi' : In (SolveFile f o) ((if isdigit (last argv []) then [SolveRandom (int_of_digits (last argv [])) (read_options default_settings argv)] else []) ++ [PrintUsage])) by (rewrite E; apply in_or_app; now left).
    destruct (isdigit (last argv [])); cbn in Hi'; intuition discriminate.
  - intros Hc. destruct (isdigit (last argv [])); cbn; rewrite ?Hc; cbn; auto.
Qed.
Lemma cli_nothing look completes argv : tree_view look -> ~ number (last argv []) ->
  (forall f, ~ names_file look (last argv []) f /\ ~ holds look (last argv []) f) -> cli look completes argv = [PrintUsage].
Proof.
  intros HT Hx Hf. unfold cli, cli_actions. rewrite no_files by assumption. destruct (isdigit (last argv [])) eqn:E; [apply isdigit_number in E; contradiction|].
  cbn. now destruct (completes PrintUsage).
Qed.

(** ** tsp_cli *)
Lemma nodes_from N : (2 <= N)%nat -> seq 0 N = 0%nat :: seq 1 (N - 1) /\ seq 1 (N - 1) <> [] /\ NoDup (seq 1 (N - 1)) /\ forall j, In j (seq 1 (N - 1)) -> (1 <= j < N)%nat.
Proof.
  intros H. destruct N as [|[|n]]; try lia. split; [|split; [|split]].
  - cbn [seq]. now rewrite Nat.sub_0_r || reflexivity.
  - discriminate.
  - apply seq_NoDup.
  - intros j Hj. apply in_seq in Hj. lia.
Qed.
Lemma tsp_cli_tour look read f prog file content N D (g : tsp) : look file = Some (File content) -> read file = Some (N, D) -> (2 <= N)%nat -> solver N D g ->
  (forall sol len, g (seq 0 N) = (sol, len) -> sol <> [] -> f N D (seq 0 N) = TspTour sol len 1) ->
  exists l, Permutation l (seq 1 (N - 1)) /\ g (0%nat :: seq 1 (N - 1)) = (0%nat :: l ++ [0%nat], route_cost D l) /\
    tsp_cli look read 1 f [prog; file] = CliPrints (0%nat :: l ++ [0%nat]) (route_cost D l).
Proof.
  intros Hl Hr HN Hg Hf. destruct (nodes_from N HN) as (E & H1 & H2 & H3). destruct (Hg _ H1 H2 H3) as (l & Eg & Hp).
  exists l. split; [exact Hp|]. split; [exact Eg|]. unfold tsp_cli, isfile. rewrite Hl, Hr. rewrite (Hf (0%nat :: l ++ [0%nat]) (route_cost D l)); [|now rewrite E|discriminate].
  rewrite objf_path. change (path_cost D (0%nat :: l ++ [0%nat])) with (route_cost D l). now rewrite Z.eqb_refl.
Qed.

(** A folder with one file *)
Definition one_file (p : text) : option fs := if text_eqb p (str "E-n22.vrp") then Some (File []) else None.
Lemma one_file_tree : tree_view one_file.
Proof. intros p es n c H. unfold one_file in H. destruct (text_eqb p (str "E-n22.vrp")); discriminate. Qed.
