(** * Final forms of the lemmas behind T_core.v *)
From Verif Require Import Spec PyBase M_util Spec_util M_cvrp_ops M_routedata
     P_base P_validate P_cvrp P_util P_rd.

Lemma normalize_idem rs ns : Forall customers_only rs ->
  normalize_solution (Giant (encode rs)) = Some ns -> normalize_solution (Giant ns) = Some ns.
Proof.
  intros H E. rewrite normalize_giant in E by exact H. injection E as <-.
  rewrite normalize_giant by now apply nf_customers. now rewrite nf_idem.
Qed.


Lemma normalize_canonical rs1 rs2 :
  Forall customers_only rs1 -> Forall customers_only rs2 ->
  Forall (fun r => r <> []) rs1 -> Forall (fun r => r <> []) rs2 -> Forall (@NoDup nat) rs1 ->
  (normalize_solution (Giant (encode rs1)) = normalize_solution (Giant (encode rs2)) <->
   same_routes rs1 rs2).
Proof.
  intros H1 H2 H3 H4 H5. rewrite !normalize_giant by assumption. rewrite <- nf_same_iff by assumption.
  split; [|now intros ->]. intros E. injection E as E. apply encode_inj; try (now apply nf_customers). unfold encode. now f_equal.
Qed.


Lemma normalize_forms rs ws : rs <> [] -> Forall customers_only rs -> Forall (fun r => r <> []) rs ->
  Forall2 (fun r w => exists a b, w = repeat 0%nat a ++ r ++ repeat 0%nat b) rs ws ->
  normalize_solution (Routes ws) = normalize_solution (Giant (encode rs)).
Proof. intros. rewrite (normalize_routes rs ws), normalize_giant by assumption. reflexivity. Qed.


Lemma normalize_preserves N D d C L eps rs ns :
  (0 < N)%nat -> d 0%nat = 0 -> symmetric D -> D 0%nat 0%nat = 0 -> Forall customers_only rs ->
  Forall (fun n => (n < N)%nat) (encode rs) ->
  normalize_solution (Giant (encode rs)) = Some ns ->
  recalculate_objective (Giant ns) D = recalculate_objective (Giant (encode rs)) D /\
  validate_solution_feasibility N ns D d C L eps =
  validate_solution_feasibility N (encode rs) D d C L eps.
Proof.
  intros HN Hd HS H0 Hc Hlt E. rewrite normalize_giant in E by exact Hc. injection E as <-.
  split; [|now apply validate_nf]. rewrite !recalc_giant by exact H0. now rewrite nf_cost.
Qed.


Lemma objectives_agree D d rs ws : D 0%nat 0%nat = 0 -> rs <> [] ->
  Forall customers_only rs -> Forall (fun r => r <> []) rs -> Forall2 depot_wrapped rs ws ->
  objf (encode rs) D = routes_cost D rs /\
  recalculate_objective (Giant (encode rs)) D = Some (routes_cost D rs) /\
  recalculate_objective (Routes ws) D = Some (routes_cost D rs) /\
  sumZ (map rd_cost (from_routes (map wrap rs) D d)) = routes_cost D rs.
Proof.
  intros H0 Hn Hc He HF. split; [now rewrite objf_path, path_cost_encode|].
  split; [now apply recalc_giant|]. split; [|apply sum_rd_cost].
  unfold recalculate_objective. destruct ws as [|w ws']; [inversion HF; congruence|].
  now rewrite (recalc_routes_spec D rs (w :: ws')).
Qed.


Lemma conversions1 rs ws : Forall customers_only rs -> Forall2 entry_of rs ws -> ws <> [] ->
  exists sol, routes2sol ws = Some sol /\
    sol2routes sol = map wrap (filter nonempty rs) /\ customers sol = concat rs.
Proof.
  intros Hc HF Hn. destruct (routes2sol_gen_spec rs ws Hc HF) as (es & E & He & Ef).
  exists (encode es). unfold routes2sol. destruct ws as [|w ws']; [easy|].
  unfold routes2sol_gen in E. rewrite E. split; [reflexivity|].
  rewrite sol2routes_encode by exact He. rewrite Ef. split; [reflexivity|].
  rewrite customers_encode by exact He. now rewrite <- concat_filter_nonempty, Ef, concat_filter_nonempty.
Qed.


Lemma conversions2 rs : Forall customers_only rs -> filter nonempty rs <> [] ->
  routes2sol (map Some (sol2routes (encode rs))) = Some (encode (filter nonempty rs)).
Proof.
  intros Hc Hn. rewrite sol2routes_encode by exact Hc. rewrite map_map.
  apply routes2sol_wrap; [exact Hn| |apply filter_nonempty_Forall].
  rewrite Forall_forall in *. intros r Hr. apply filter_In in Hr. now apply Hc.
Qed.


Lemma weR_all D rs : D 0%nat 0%nat = 0 -> Forall customers_only rs -> Forall no_repeats rs ->
  without_empty_routes (encode rs) = encode (filter nonempty rs) /\
  customers (without_empty_routes (encode rs)) = concat rs /\
  objf (without_empty_routes (encode rs)) D = objf (encode rs) D.
Proof.
  intros H0 Hc Hn. rewrite weR_encode by assumption. split; [reflexivity|]. split.
  - rewrite customers_encode; [apply concat_filter_nonempty|].
    rewrite Forall_forall in *. intros r Hr. apply filter_In in Hr. now apply Hc.
  - rewrite !objf_path, !path_cost_encode. now apply routes_cost_nonempty.
Qed.

