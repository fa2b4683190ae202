(** * The command lines of the TSP solvers *)
From Verif Require Import Spec PyBase M_util M_text M_cli2 M_intra M_rfcs M_tspg M_tspx M_cmd
  Spec_rfcs Spec_tspg Spec_tspx Spec_io P_rfcs3 P_tspg P_tspg3 P_tspg4 P_tspx P_tspx2 P_tspx3 P_tspx4 P_tspx5 P_cmd2.
From Coq Require Import ZifyBool ZifyNat Lia Arith List Permutation.
Import ListNotations.
Local Open Scope Z_scope.

Lemma ropt_pair eps fuel N D sol len : as_tsp (fun l => solve_tsp_ropt eps fuel D l None true true) (seq 0 N) = (sol, len) -> sol <> [] ->
  ropt_f eps fuel N D (seq 0 N) = TspTour sol len 1.
Proof. unfold as_tsp, ropt_f. destruct (solve_tsp_ropt eps fuel D (seq 0 N) None true true) as [[[s c]|]|]; intros [= <- <-]; congruence. Qed.
Lemma gurobi_pair gurobi N D sol len : gurobi_tsp gurobi D (seq 0 N) = (sol, len) -> sol <> [] -> gurobi_f gurobi N D (seq 0 N) = TspTour sol len 1.
Proof. unfold gurobi_tsp, gurobi_f. destruct (solve_tsp_gurobi gurobi D (seq 0 N)) as [[s|] c| | | |]; intros [= <- <-]; congruence. Qed.
Lemma lkh_any_accuracy lkh accuracy N D l : solve_tsp_lkh lkh None accuracy N D l = solve_tsp_lkh lkh None 1 N D l.
Proof. reflexivity. Qed.
Lemma lkh_den lkh N D l sol num den : solve_tsp_lkh lkh None 1 N D l = Ok (sol, (num, den)) -> den = 1.
Proof.
  unfold solve_tsp_lkh. destruct (length l <=? 3)%nat.
  - destruct (node_sort l); [discriminate|]. intros [= _ _ <-]. reflexivity.
  - destruct (lkh_loop _ _ _); cbn [bind]; [|discriminate]. destruct (lkh_close _); cbn [bind]; [|discriminate]. intros [= _ _ <-]. reflexivity.
Qed.
Lemma lkh_pair lkh accuracy N D sol len : lkh_tsp lkh N D (seq 0 N) = (sol, len) -> sol <> [] -> lkh_f lkh None accuracy N D (seq 0 N) = TspTour sol len 1.
Proof.
  unfold lkh_tsp, lkh_f. rewrite (lkh_any_accuracy lkh accuracy). destruct (solve_tsp_lkh lkh None 1 N D (seq 0 N)) as [[s [num den]]|] eqn:E; [|intros [= <- <-]; congruence].
  apply lkh_den in E. subst den. now intros [= <- <-].
Qed.
Lemma aco_any_accuracy aco accuracy N D l : solve_tsp_acotsp aco None accuracy false N D l = solve_tsp_acotsp aco None 1 false N D l.
Proof. reflexivity. Qed.
Lemma aco_pair aco accuracy N D sol len : aco_tsp aco N D (seq 0 N) = (sol, len) -> sol <> [] -> aco_f aco None accuracy false N D (seq 0 N) = TspTour sol len 1.
Proof.
  unfold aco_tsp, aco_f. rewrite (aco_any_accuracy aco accuracy). destruct (solve_tsp_acotsp aco None 1 false N D (seq 0 N)) as [[[[s c]|]|]|]; intros [= <- <-]; congruence.
Qed.
Lemma fast_pair eps fuel gurobi lkh accuracy N D sol len : fast_tsp eps fuel gurobi lkh N D (seq 0 N) = (sol, len) -> sol <> [] ->
  fast_f eps fuel gurobi lkh None accuracy N D (seq 0 N) = TspTour sol len 1.
Proof.
  unfold fast_tsp, fast_f, solve_tsp_fast. destruct (_ <? 5)%nat; [apply ropt_pair|]. destruct (_ <? 20)%nat; [apply gurobi_pair|apply lkh_pair].
Qed.

Lemma ropt_cli look read prog file content N D eps : look file = Some (File content) -> read file = Some (N, D) -> (2 <= N)%nat -> 0 <= eps -> symmetric D ->
  exists fuel0, forall fuel, (fuel0 <= fuel)%nat -> exists l, Permutation l (seq 1 (N - 1)) /\
    tsp_cli look read 1 (ropt_f eps fuel) [prog; file] = CliPrints (0%nat :: l ++ [0%nat]) (route_cost D l).
Proof.
  intros Hl Hr HN He HS. destruct (ropt_solver eps D N true true He HS) as (fuel0 & H). exists fuel0. intros fuel Hf.
  destruct (H fuel Hf) as [H1 _]. destruct (tsp_cli_tour look read (ropt_f eps fuel) prog file content N D _ Hl Hr HN H1) as (l & Hp & _ & E); [apply ropt_pair|eauto].
Qed.
Lemma gurobi_cli look read prog file content N D gurobi : look file = Some (File content) -> read file = Some (N, D) -> (2 <= N)%nat ->
  tsp_honest gurobi -> tsp_patient gurobi -> symmetric D ->
  exists l, Permutation l (seq 1 (N - 1)) /\ (forall p, Permutation p (seq 1 (N - 1)) -> route_cost D l <= route_cost D p) /\
    tsp_cli look read 1 (gurobi_f gurobi) [prog; file] = CliPrints (0%nat :: l ++ [0%nat]) (route_cost D l).
Proof.
  intros Hl Hr HN HG HP HS. destruct (gurobi_exact N D gurobi HG HP HS) as (H1 & _ & H3).
  destruct (tsp_cli_tour look read (gurobi_f gurobi) prog file content N D _ Hl Hr HN H1) as (l & Hp & Eg & E); [apply gurobi_pair|].
  exists l. split; [exact Hp|]. split; [|exact E]. intros p Hpp. destruct (nodes_from N HN) as (_ & A & B & C). specialize (H3 _ p A B C Hpp). now rewrite Eg in H3.
Qed.
Lemma lkh_cli look read prog file content N D lkh accuracy : look file = Some (File content) -> read file = Some (N, D) -> (2 <= N)%nat ->
  lkh_writes_tours lkh -> symmetric D -> (forall i, D i i = 0) ->
  exists l, Permutation l (seq 1 (N - 1)) /\
    (lkh_optimal lkh -> forall p, Permutation p (seq 1 (N - 1)) -> route_cost D l <= route_cost D p) /\
    tsp_cli look read 1 (lkh_f lkh None accuracy) [prog; file] = CliPrints (0%nat :: l ++ [0%nat]) (route_cost D l).
Proof.
  intros Hl Hr HN HG HS H0. pose proof (lkh_solver lkh N D HG HS H0) as H1.
  destruct (tsp_cli_tour look read (lkh_f lkh None accuracy) prog file content N D _ Hl Hr HN H1) as (l & Hp & Eg & E); [apply lkh_pair|].
  exists l. split; [exact Hp|]. split; [|exact E]. intros HO p Hpp. destruct (nodes_from N HN) as (_ & A & B & C).
  pose proof (lkh_exact_solver lkh N D HO HS H0 _ p A B C Hpp) as H3. now rewrite Eg in H3.
Qed.
Lemma aco_cli look read prog file content N D aco accuracy : look file = Some (File content) -> read file = Some (N, D) -> (2 <= N)%nat ->
  aco_prints_tours aco -> symmetric D -> (forall i, D i i = 0) ->
  exists l, Permutation l (seq 1 (N - 1)) /\
    tsp_cli look read 1 (aco_f aco None accuracy false) [prog; file] = CliPrints (0%nat :: l ++ [0%nat]) (route_cost D l).
Proof.
  intros Hl Hr HN HG HS H0. pose proof (aco_solver aco N D HG HS H0) as H1.
  destruct (tsp_cli_tour look read (aco_f aco None accuracy false) prog file content N D _ Hl Hr HN H1) as (l & Hp & Eg & E); [apply aco_pair|eauto].
Qed.
Lemma fast_cli look read prog file content N D eps gurobi lkh accuracy : look file = Some (File content) -> read file = Some (N, D) -> (2 <= N)%nat ->
  0 <= eps -> tsp_honest gurobi -> tsp_patient gurobi -> lkh_writes_tours lkh -> symmetric D -> (forall i, D i i = 0) ->
  exists fuel0, forall fuel, (fuel0 <= fuel)%nat -> exists l, Permutation l (seq 1 (N - 1)) /\
    tsp_cli look read 1 (fast_f eps fuel gurobi lkh None accuracy) [prog; file] = CliPrints (0%nat :: l ++ [0%nat]) (route_cost D l).
Proof.
  intros Hl Hr HN He HG HP HL HS H0. destruct (fast_solver eps gurobi lkh N D He HG HP HL HS H0) as (fuel0 & H). exists fuel0. intros fuel Hf.
  destruct (tsp_cli_tour look read (fast_f eps fuel gurobi lkh None accuracy) prog file content N D _ Hl Hr HN (H fuel Hf)) as (l & Hp & Eg & E); [apply fast_pair|eauto].
Qed.
Lemma usage_cli look read u f argv : ~ (exists prog file content, argv = [prog; file] /\ look file = Some (File content)) -> tsp_cli look read u f argv = CliUsage.
Proof.
  intros H. destruct argv as [|a [|b [|c t]]]; try reflexivity. unfold tsp_cli, isfile. destruct (look b) as [[content|es]|] eqn:E; try reflexivity.
  exfalso. apply H. now exists a, b, content.
Qed.
