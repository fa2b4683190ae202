(** * The TSP solvers that call other programs: C93 - C98 *)
From Verif Require Import PyBase M_text M_io M_intra M_rfcs M_tspg M_tspx P_tspg P_tspg3 P_tspg4 P_tspx P_tspx2 P_tspx3 P_tspx4 P_tspx5 Spec_io Spec_tspx Spec_tspg Spec_rfcs Spec.
From Coq Require Import ZifyBool ZifyNat Lia List Permutation.
Import ListNotations.
Local Open Scope Z_scope.

(** ** C93: solve_tsp_gurobi *)
Theorem C93_shortest_tour : forall gurobi D nodes selected sol len, tsp_honest gurobi -> symmetric D -> NoDup nodes -> (2 <= length nodes)%nat ->
  selected = nodes \/ selected = nodes ++ firstn 1 nodes ->
  solve_tsp_gurobi gurobi D selected = TspReturns sol len ->
  exists tour, sol = Some tour /\ closed_tour nodes tour /\ len = path_cost D tour /\ shortest_length D nodes len.
Proof.
  intros gurobi D nodes selected sol len HG HS Hn H2 Hsel E. pose proof (gurobi_result gurobi D HG HS nodes selected Hn H2 Hsel) as H. rewrite E in H. exact H.
Qed.
Print Assumptions C93_shortest_tour.
(** It fails only when Gurobi is interrupted or runs out of time; the check that the tour is complete never fails. *)
Theorem C93_returns : forall gurobi D nodes selected, tsp_honest gurobi -> symmetric D -> NoDup nodes -> (2 <= length nodes)%nat ->
  selected = nodes \/ selected = nodes ++ firstn 1 nodes ->
  solve_tsp_gurobi gurobi D selected <> TspAssertionError /\ (tsp_patient gurobi -> exists sol len, solve_tsp_gurobi gurobi D selected = TspReturns sol len).
Proof.
  intros gurobi D nodes selected HG HS Hn H2 Hsel. pose proof (gurobi_result gurobi D HG HS nodes selected Hn H2 Hsel) as H.
  destruct (solve_tsp_gurobi gurobi D selected); try contradiction; (split; [discriminate|]); eauto; intros HP; exfalso; destruct (HP (length nodes) (fun i j => D (nth i selected 0%nat) (nth j selected 0%nat))), H; contradiction.
Qed.
Print Assumptions C93_returns.
(** As the heuristics use it: it is an exact solver. *)
Theorem C93_exact_solver : forall N D gurobi, tsp_honest gurobi -> tsp_patient gurobi -> symmetric D ->
  solver N D (gurobi_tsp gurobi D) /\ improver N D (gurobi_tsp gurobi D) /\ exact_solver N D (gurobi_tsp gurobi D).
Proof. exact gurobi_exact. Qed.
Print Assumptions C93_exact_solver.
(** A single node has a tour too, but none is returned. *)
Theorem C93_one_node_refuted : ~ (forall gurobi D nodes sol len, tsp_honest gurobi -> symmetric D -> NoDup nodes -> nodes <> [] ->
  solve_tsp_gurobi gurobi D nodes = TspReturns sol len -> exists tour, sol = Some tour /\ closed_tour nodes tour).
Proof.
  intros H. destruct (H try_tours (fun _ _ => 0) [3%nat] None 0) as (tour & E & _); [exact try_tours_honest|intros i j; reflexivity|repeat constructor; intros []|discriminate|apply gurobi_one|discriminate].
Qed.
Print Assumptions C93_one_node_refuted.
Definition D5p : matrix := fun i j => Z.abs (Z.of_nat (i * i) - Z.of_nat (j * j)) + (if Nat.eqb i j then 0 else 5).
Example C93_case : tsp_honest try_tours /\ tsp_patient try_tours /\ symmetric D5p /\
  solve_tsp_gurobi try_tours D5p [0; 3; 1; 4; 2]%nat = TspReturns (Some [0; 1; 3; 4; 2; 0]%nat) 57 /\
  solve_tsp_gurobi try_tours D5p [0; 3; 1; 4; 2; 0]%nat = TspReturns (Some [0; 1; 3; 4; 2; 0]%nat) 57.
Proof.
  split; [exact try_tours_honest|]. split; [intros n c; unfold try_tours; destruct (n =? 0)%nat; [split; discriminate|]; destruct (n <? 3)%nat; split; discriminate|].
  split; [intros i j; unfold D5p; rewrite Nat.eqb_sym; f_equal; rewrite <- Z.abs_opp; f_equal; lia|]. split; vm_compute; reflexivity.
Qed.

(** ** C94: solve_tsp_lkh for integer distances *)
Theorem C94_tour_and_length : forall lkh accuracy N D nodes, lkh_writes_tours lkh -> distances D nodes -> NoDup nodes -> nodes <> [] ->
  exists sol, solve_tsp_lkh lkh None accuracy N D nodes = Ok (sol, (path_cost D sol, 1)) /\ round_trip nodes sol.
Proof. exact lkh_integer. Qed.
Print Assumptions C94_tour_and_length.
Theorem C94_shortest_if_lkh_finds_it : forall lkh accuracy N D nodes sol len, lkh_optimal lkh -> distances D nodes -> NoDup nodes ->
  solve_tsp_lkh lkh None accuracy N D nodes = Ok (sol, (len, 1)) -> forall other, round_trip nodes other -> len <= path_cost D other.
Proof. exact lkh_shortest. Qed.
Print Assumptions C94_shortest_if_lkh_finds_it.
Theorem C94_solver : forall lkh N D, lkh_writes_tours lkh -> symmetric D -> (forall i, D i i = 0) ->
  solver N D (lkh_tsp lkh N D) /\ (lkh_optimal lkh -> exact_solver N D (lkh_tsp lkh N D)).
Proof. intros lkh N D HL HS H0. split; [now apply lkh_solver|]. intros HO. now apply lkh_exact_solver. Qed.
Print Assumptions C94_solver.
(** A list that is already closed, which the other solvers accept, gets a second visit to its first node. *)
Theorem C94_closed_list_refuted : ~ (forall lkh accuracy N D nodes sol r, lkh_writes_tours lkh -> distances D nodes -> NoDup nodes -> (2 <= length nodes)%nat ->
  solve_tsp_lkh lkh None accuracy N D (nodes ++ firstn 1 nodes) = Ok (sol, r) -> round_trip nodes sol).
Proof.
  intros H. destruct (H try_lkh 1000 4%nat Dsq [0; 3]%nat [0; 0; 3; 0]%nat (40, 1)) as (s & E & P & _).
  - apply optimal_writes, try_lkh_optimal.
  - apply Dsq_dist. intros i [<-|[<-|[]]]; lia.
  - repeat constructor; cbn; intuition discriminate.
  - cbn. lia.
  - exact lkh_closed_case.
  - apply Permutation_length in P. apply (f_equal (@length nat)) in E. rewrite app_length, firstn_length, P in E. cbn in E. lia.
Qed.
Print Assumptions C94_closed_list_refuted.
Example C94_case : lkh_optimal try_lkh /\ lkh_writes_tours try_lkh /\ symmetric Dsq /\ (forall i, Dsq i i = 0) /\
  solve_tsp_lkh try_lkh None 1000 4 Dsq [2; 0; 3; 1]%nat = Ok ([0; 1; 2; 3; 0]%nat, (80, 1)) /\
  solve_tsp_lkh try_lkh None 1000 4 Dsq [3; 1; 2]%nat = Ok ([1; 2; 3; 1]%nat, (70, 1)).
Proof.
  split; [exact try_lkh_optimal|]. split; [apply optimal_writes, try_lkh_optimal|]. split; [apply Dsq_all|]. split; [apply Dsq_all|]. split; vm_compute; reflexivity.
Qed.

(** ** C95: solve_tsp_lkh for float distances, [D i j / u] *)
Theorem C95_length_bounds : forall lkh u accuracy N D nodes, lkh_writes_tours lkh -> 0 < u -> 0 < accuracy -> (forall i j, 0 <= D i j) ->
  distances D nodes -> NoDup nodes -> nodes <> [] ->
  exists sol num den, solve_tsp_lkh lkh (Some u) accuracy N D nodes = Ok (sol, (num, den)) /\ round_trip nodes sol /\
    den = (if (length nodes <=? 3)%nat then 1 else accuracy) /\
    u * num <= den * path_cost D sol < u * (num + Z.of_nat (length nodes)).
Proof. exact lkh_float. Qed.
Print Assumptions C95_length_bounds.
Theorem C95_nearly_shortest : forall lkh u accuracy N D nodes sol num den, lkh_optimal lkh -> 0 < u -> 0 < accuracy -> (forall i j, 0 <= D i j) ->
  distances D nodes -> NoDup nodes -> solve_tsp_lkh lkh (Some u) accuracy N D nodes = Ok (sol, (num, den)) ->
  forall other, round_trip nodes other -> accuracy * path_cost D sol < accuracy * path_cost D other + u * Z.of_nat (length nodes).
Proof. exact lkh_near. Qed.
Print Assumptions C95_nearly_shortest.
Theorem C95_exact_length_refuted : ~ (forall lkh u accuracy N D nodes sol num den, lkh_writes_tours lkh -> 0 < u -> 0 < accuracy -> (forall i j, 0 <= D i j) ->
  distances D nodes -> NoDup nodes -> solve_tsp_lkh lkh (Some u) accuracy N D nodes = Ok (sol, (num, den)) -> u * num = den * path_cost D sol).
Proof.
  intros H. specialize (H try_lkh 10 1000 3%nat D9 [0; 1; 2]%nat [0; 1; 2; 0]%nat 0 1). rewrite (proj2 lkh_float_case) in H.
  assert (10 * 0 = 1 * 27); [|discriminate]. apply H; try lia.
  - apply optimal_writes, try_lkh_optimal.
  - intros i j. unfold D9. destruct (Nat.eqb i j); lia.
  - apply D9_dist.
  - repeat constructor; cbn; intuition discriminate.
  - apply lkh_float_case.
Qed.
Print Assumptions C95_exact_length_refuted.
(** Lengths of 0.9 between three nodes: the length returned is 0.  A third between four nodes: 1332/1000 *)
Example C95_case : solve_tsp_lkh try_lkh (Some 10) 1000 3 D9 [0; 1; 2]%nat = Ok ([0; 1; 2; 0]%nat, (0, 1)) /\ path_cost D9 [0; 1; 2; 0]%nat = 27 /\
  solve_tsp_lkh try_lkh (Some 3) 1000 4 (fun i j => if Nat.eqb i j then 0 else 1) [0; 1; 2; 3]%nat = Ok ([0; 1; 2; 3; 0]%nat, (1332, 1000)).
Proof. split; [apply lkh_float_case|]. split; [apply lkh_float_case|exact lkh_float_case4]. Qed.

(** ** C96: a tour file that is not complete *)
Theorem C96_no_tour_file : forall lkh unit accuracy N D nodes, (4 <= length nodes)%nat -> (forall file, lkh file = []) ->
  solve_tsp_lkh lkh unit accuracy N D nodes = Raise IndexError.
Proof. exact lkh_empty. Qed.
Print Assumptions C96_no_tour_file.
(** LKH stops while it writes the file. *)
Theorem C96_cut_off_refuted : ~ (forall lkh whole unit accuracy N D nodes sol r, lkh_writes_tours whole -> (forall file, exists rest, whole file = lkh file ++ rest) ->
  distances D nodes -> NoDup nodes -> solve_tsp_lkh lkh unit accuracy N D nodes = Ok (sol, r) -> round_trip nodes sol).
Proof.
  intros H. destruct (H (fun file => firstn 60 (try_lkh file)) try_lkh None 1000 4%nat Dsq [0; 1; 2; 3]%nat [0; 1; 0]%nat (80, 1)) as (s & E & P & _).
  - apply optimal_writes, try_lkh_optimal.
  - intros file. exists (skipn 60 (try_lkh file)). symmetry. apply firstn_skipn.
  - apply Dsq_dist. intros i Hi. cbn in Hi. intuition lia.
  - repeat constructor; cbn; intuition discriminate.
  - exact lkh_cut_case.
  - apply Permutation_length in P. apply (f_equal (@length nat)) in E. rewrite app_length, firstn_length, P in E. cbn in E. lia.
Qed.
Print Assumptions C96_cut_off_refuted.
Example C96_case : solve_tsp_lkh (fun file => firstn 60 (try_lkh file)) None 1000 4 Dsq [0; 1; 2; 3]%nat = Ok ([0; 1; 0]%nat, (80, 1)) /\
  solve_tsp_lkh (fun file => firstn 40 (try_lkh file)) None 1000 4 Dsq [0; 1; 2; 3]%nat = Raise IndexError.
Proof. split; [exact lkh_cut_case|vm_compute; reflexivity]. Qed.

(** ** C97: solve_tsp_acotsp *)
Theorem C97_tour_and_length : forall aco unit accuracy N D nodes, aco_prints_tours aco -> distances D nodes -> NoDup nodes -> nodes <> [] ->
  exists s, solve_tsp_acotsp aco unit accuracy false N D nodes = Some (Ok (Some (s ++ firstn 1 s, path_cost D (s ++ firstn 1 s)))) /\ Permutation s nodes.
Proof. exact aco_any. Qed.
Print Assumptions C97_tour_and_length.
(** With four nodes or more it starts at the first node. *)
Theorem C97_starts_at_first : forall aco unit accuracy N D nodes, aco_prints_tours aco -> distances D nodes -> NoDup nodes -> (4 <= length nodes)%nat ->
  exists sol, solve_tsp_acotsp aco unit accuracy false N D nodes = Some (Ok (Some (sol, path_cost D sol))) /\ closed_tour nodes sol.
Proof. exact aco_result. Qed.
Print Assumptions C97_starts_at_first.
Theorem C97_solver : forall aco N D, aco_prints_tours aco -> symmetric D -> (forall i, D i i = 0) -> solver N D (aco_tsp aco N D).
Proof. exact aco_solver. Qed.
Print Assumptions C97_solver.
(** The ant system cannot be used: every call with four nodes or more fails before ACOTSP is started. *)
Theorem C97_ants_refuted : ~ (forall aco unit accuracy N D nodes, aco_prints_tours aco -> distances D nodes -> NoDup nodes -> nodes <> [] ->
  exists sol, solve_tsp_acotsp aco unit accuracy true N D nodes = Some (Ok sol)).
Proof.
  intros H. destruct (H try_aco None 1000 4%nat Dsq [0; 1; 2; 3]%nat) as (sol & E); [exact try_aco_tours| | |discriminate|].
  - apply Dsq_dist. intros i Hi. cbn in Hi. intuition lia.
  - repeat constructor; cbn; intuition discriminate.
  - rewrite aco_ants in E by (cbn; lia). discriminate.
Qed.
Print Assumptions C97_ants_refuted.
Theorem C97_ants_never_run : forall aco unit accuracy N D nodes, (4 <= length nodes)%nat -> solve_tsp_acotsp aco unit accuracy true N D nodes = None.
Proof. exact aco_ants. Qed.
Print Assumptions C97_ants_never_run.
Example C97_case : aco_prints_tours try_aco /\ solve_tsp_acotsp try_aco None 1000 false 4 Dsq [2; 0; 3; 1]%nat = Some (Ok (Some ([2; 3; 0; 1; 2]%nat, 80))).
Proof. split; [exact try_aco_tours|exact aco_case]. Qed.

(** ** C98: solve_tsp_fast *)
Theorem C98_solver : forall eps gurobi lkh N D, 0 <= eps -> tsp_honest gurobi -> tsp_patient gurobi -> lkh_writes_tours lkh -> symmetric D -> (forall i, D i i = 0) ->
  exists fuel0, forall fuel, (fuel0 <= fuel)%nat -> solver N D (fast_tsp eps fuel gurobi lkh N D).
Proof. exact fast_solver. Qed.
Print Assumptions C98_solver.
(** Up to 19 nodes it returns a shortest tour (with up to four, to within the tolerance of its local search); with more if LKH does. *)
Theorem C98_shortest : forall eps gurobi lkh N D, 0 <= eps -> tsp_honest gurobi -> tsp_patient gurobi -> symmetric D -> (forall i, D i i = 0) ->
  forall l, l <> [] -> NoDup l -> (forall j, In j l -> (1 <= j < N)%nat) -> (length l < 19)%nat \/ lkh_optimal lkh ->
  exists fuel0, forall fuel, (fuel0 <= fuel)%nat -> forall p, Permutation p l -> snd (fast_tsp eps fuel gurobi lkh N D (0%nat :: l)) <= route_cost D p + eps.
Proof. exact fast_near. Qed.
Print Assumptions C98_shortest.
Example C98_case : fast_tsp 0 20 try_tours try_lkh 4 Dsq [0; 2; 1; 3]%nat = ([0; 1; 2; 3; 0]%nat, 80) /\
  fast_tsp 0 20 try_tours try_lkh 5 D5p [0; 3; 1; 4; 2]%nat = ([0; 1; 3; 4; 2; 0]%nat, 57).
Proof. split; [exact fast_case|vm_compute; reflexivity]. Qed.
