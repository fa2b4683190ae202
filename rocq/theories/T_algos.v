(** * The uniform interface of the heuristics: the property theorems *)
From Verif Require Import Spec Spec_inter Spec_nn Spec_savings Spec_cins2 Spec_rfcs Spec_tyagi Spec_polar Spec_lr3opt2 Spec_driver PyBase M_util M_rfcs M_intra M_cvrp_ops M_text M_cli2 M_polar M_cli Spec_cli Spec_all
  P_polar P_polar2 P_rfcs3 M_algos Spec_algos P_algos P_algos2 T_all T_end.
From Coq Require Import ZifyBool ZifyNat Lia Arith List Permutation.
Import ListNotations.
Local Open Scope Z_scope.

(** ** C121: heuristics called through call_init(points, D, d, C, L, st, wtt, single, minimize_K) *)

(** Every call ends and returns a solution that serves every customer once and keeps capacity and length, with or
    without the single iteration, unless the heuristic cannot minimize the number of routes and is asked to. *)
Theorem C121_calls_partial : forall s eps N D d C L, Spec_all.problem N D d C L eps -> forall h single minimize_K,
  fits h s N D d C L -> minimize_K = false \/ ~ refuses_minimize_K h ->
  exists rs, serves N D d C L eps eps rs /\ ends_with (call_init h s eps N D d C L single minimize_K) (Returns (Some (encode rs))).
Proof. exact calls_end. Qed.
Print Assumptions C121_calls_partial.

(** In that case it raises at once. *)
Theorem C121_refused : forall h s eps N D d C L single, refuses_minimize_K h ->
  forall fuel, call_init h s eps N D d C L single true fuel = Some Raises.
Proof. exact calls_refuse. Qed.
Print Assumptions C121_refused.

(** Without the option for a single iteration the result is never worse than with it. *)
Theorem C121_single_partial : forall s eps N D d C L, Spec_all.problem N D d C L eps -> forall h minimize_K,
  Spec_algos.fits h s N D d C L -> minimize_K = false \/ ~ refuses_minimize_K h ->
  exists rs rs1, serves N D d C L eps eps rs /\ serves N D d C L eps eps rs1 /\
    ends_with (call_init h s eps N D d C L false minimize_K) (Returns (Some (encode rs))) /\
    ends_with (call_init h s eps N D d C L true minimize_K) (Returns (Some (encode rs1))) /\ not_beaten minimize_K D rs rs1.
Proof. exact single_no_better. Qed.
Print Assumptions C121_single_partial.

(** The TSP solvers of the library, of which the first is used when LKH is not there, are as the heuristics want them. *)
Theorem C121_bundled_solver : forall eps N D, 0 <= eps -> symmetric D -> exists fuel0, forall fuel, (fuel0 <= fuel)%nat ->
  let f := as_tsp (fun l => solve_tsp_ropt eps fuel D l None true true) in
  let f2 := as_tsp (solve_tsp_2opt eps fuel D) in let f3 := as_tsp (solve_tsp_3opt eps fuel D) in
  solver N D f /\ shortens N D f /\ solver N D f2 /\ solver N D f3 /\ improver N D f3.
Proof. exact bundled. Qed.
Print Assumptions C121_bundled_solver.

(** VeRyPy.py: every job of these heuristics is reported with a feasible solution, which is said to be feasible, its own
    quality and its own number of routes. *)
Theorem C121_reports_partial : forall eps o single minimize_K named around run ps algos,
  0 <= eps -> (forall op, In op (o_ls o) -> (op <= 3)%nat) -> o_simulate o = false ->
  Forall proper_problem ps -> Forall (printable o) ps ->
  (forall p, In p ps -> Spec_all.problem (p_N p) (p_Dc p) (p_d p) (p_C p) (p_L p) eps) ->
  (forall p a, In p ps -> In a algos -> fits (named a) (around p) (p_N p) (p_Dc p) (p_d p) (p_C p) (p_L p)) ->
  minimize_K = false \/ (forall a, In a algos -> ~ refuses_minimize_K (named a)) ->
  (forall p a, In p ps -> In a algos ->
     ends_with (call_init (named a) (around p) eps (p_N p) (p_Dc p) (p_d p) (p_C p) (p_L p) single minimize_K) (run a p)) ->
  exists fuel0 reports,
    (forall fuel, (fuel0 <= fuel)%nat -> main eps o run ps algos fuel = (reports, AllDone)) /\
    Forall2 (fun (job : M_cli.problem * nat) r => let p := fst job in
      exists rs, r = Solved (p_file p) (snd job) (encode rs) true (routes_cost (shown_matrix o p) rs) (length rs) false /\
        serves (p_N p) (p_Dc p) (p_d p) (p_C p) (p_L p) eps eps rs) (list_prod ps algos) reports.
Proof. exact all_solved. Qed.
Print Assumptions C121_reports_partial.

(** Without Gurobi these are all the heuristics that can be selected but one. *)
Theorem C121_selected : forall names a, In a (get_algorithms false names) ->
  (exists h, In h heuristics /\ a = short_name h) \/ a = str "wh".
Proof. exact named_known. Qed.
Print Assumptions C121_selected.

(** Four customers on a line: all the heuristics, called both ways *)
Definition line_around : surroundings :=
  mks [[0; 0]; [1; 0]; [4; 0]; [9; 0]; [16; 0]] by_insertion (as_tsp (fun l => solve_tsp_ropt 0 50 allD l None true true))
      (fun D => as_tsp (solve_tsp_2opt 0 50 D)) (fun D => as_tsp (solve_tsp_3opt 0 50 D)) (fun _ _ => Z.of_nat) (fun _ => false) Z.of_nat Z.of_nat (fun _ => Z.of_nat) (fun _ l => seq 0 (length l)).
Example C121_case :
  Spec_all.problem 5 allD alld (Some 4) (Some 60) 0 /\ metric allD /\ self_first 5 allD /\ planar (s_points line_around) /\ sorts (s_argsort line_around) /\
  (forall h, In h heuristics -> h <> HCmt -> h <> HTy -> h <> HGm -> h <> HRfcs -> h <> HLr3o -> fits h line_around 5 allD alld (Some 4) (Some 60)) /\
  map (fun h => call_init h line_around 0 5 allD alld (Some 4) (Some 60) false false 100) heuristics =
    map (fun s => Some (Returns (Some s))) [[0; 1; 2; 0; 3; 4; 0]; [0; 1; 2; 0; 3; 4; 0]; [0; 1; 2; 0; 3; 4; 0]; [0; 2; 1; 0; 4; 3; 0];
      [0; 1; 2; 0; 3; 4; 0]; [0; 1; 2; 0; 3; 4; 0]; [0; 1; 2; 0; 3; 4; 0]; [0; 1; 2; 0; 3; 4; 0]; [0; 2; 4; 0; 1; 3; 0];
      [0; 4; 3; 0; 2; 1; 0]; [0; 1; 2; 0; 3; 4; 0]; [0; 1; 2; 0; 3; 4; 0]; [0; 1; 2; 0; 3; 4; 0]; [0; 1; 2; 0; 3; 4; 0]; [0; 1; 2; 0; 3; 4; 0]; [0; 3; 4; 0; 1; 2; 0]; [0; 1; 2; 0; 3; 4; 0]]%nat /\
  s_solve_tsp line_around (seq 1 4) = ([1; 2; 3; 4; 1]%nat, 30) /\ giant_tour 5 [1; 2; 3; 4]%nat [1; 2; 3; 4; 1]%nat /\ grows (s_2opt line_around allD) [1; 2; 3; 4]%nat /\
  lagrangean 5 allD alld (Some 4) (Some 60) (s_inf line_around).
Proof.
  assert (HM : metric allD).
  { split; [intros i; unfold allD; lia|split; [intros i j; unfold allD; lia|intros i j k; unfold allD; lia]]. }
  assert (HS : self_first 5 allD).
  { intros i j Hi Hj Hij. left. unfold allD. nia. }
  split; [exact C104_problem|]. split; [exact HM|]. split; [exact HS|]. split; [repeat constructor|]. split; [exact by_insertion_sorts|]. split.
  - intros h _ H1 H2 H3 H4 H5. destruct h; cbn [fits]; try exact I; try easy; [lia|]. split; [reflexivity|]. split; [repeat constructor|exact by_insertion_sorts].
  - split; [vm_compute; reflexivity|]. split; [vm_compute; reflexivity|]. split; [split; [apply Permutation_refl|now right]|]. split; [apply grows_b_sound; vm_compute; reflexivity|].
    right. left. split; [apply HM|]. split; [exists 0%nat, 1%nat; vm_compute; repeat split; lia|]. intros _. exists 1%nat. split; [lia|]. intros i Hi Hn.
    do 5 (destruct i as [|i]; [vm_compute; try reflexivity; now destruct Hn|]). lia.
Qed.
