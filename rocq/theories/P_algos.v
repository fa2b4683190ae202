(** * Proofs: the uniform interface of the heuristics *)
From Verif Require Import Spec Spec_inter Spec_nn Spec_savings Spec_cins2 Spec_rfcs Spec_tyagi Spec_sweep Spec_polar Spec_pnn Spec_driver PyBase M_util M_psavings M_ssavings M_savfam M_cins M_mj M_nn M_pnn
  M_tyagi M_sweep M_polar M_gm Spec_gm M_cmt M_rfcs M_intra M_cvrp_ops M_cli Spec_cli Spec_all P_all Spec_end P_end M_algos Spec_algos P_tyagi4 P_rfcs3 P_fuel P_base P_cvrp P_cli2 P_cli3 P_lr3opt4
  T_psavings T_ssavings T_savfam T_cli T_cins T_mj T_pnn T_tyagi T_sweep T_polar T_cmt T_gm T_rfcs M_lr3opt2 M_lr3opt3 T_lr3opt3.
From Coq Require Import ZifyBool ZifyNat Lia Arith List Permutation.
Import ListNotations.
Local Open Scope Z_scope.

Lemma always {A} (call : nat -> option A) a : (forall fuel, call fuel = Some a) -> ends_with call a.
Proof. intros H. exists 0%nat. intros fuel _. apply H. Qed.

(** ** Route first, cluster second: more fuel does not matter *)
Lemma rf_route_more i gt gtl f : forall n n' u v route r, (n <= n')%nat -> rf_route i gt gtl f n u v route = Some r -> rf_route i gt gtl f n' u v route = Some r.
Proof.
  induction n as [|n IH]; intros n' u v route r Hn; destruct n' as [|n']; try lia; cbn [rf_route]; intros E; try (now destruct (_ || _)%bool).
  - destruct (_ || _)%bool; [|exact E]. apply IH; [lia|exact E].
Qed.
Lemma rf_routes_more i gt gtl f g m b : forall n n' u v sol r, (n <= n')%nat ->
  rf_routes i gt gtl f g m b n u v sol = Some r -> rf_routes i gt gtl f g m b n' u v sol = Some r.
Proof.
  induction n as [|n IH]; intros n' u v sol r Hn E; [discriminate|]. destruct n' as [|n']; [lia|].
  change (rf_routes i gt gtl f g m b (S n) u v sol) with
    (match rf_route i gt gtl f (S n) u v [0%nat; 0%nat] with None => None | Some route =>
       let route' := if i then route else fst (g route) in let sol' := sol ++ tl route' in
       if Nat.eqb v b then Some sol' else rf_routes i gt gtl f g m b n v (snd m v b) sol' end) in E.
  change (rf_routes i gt gtl f g m b (S n') u v sol) with
    (match rf_route i gt gtl f (S n') u v [0%nat; 0%nat] with None => None | Some route =>
       let route' := if i then route else fst (g route) in let sol' := sol ++ tl route' in
       if Nat.eqb v b then Some sol' else rf_routes i gt gtl f g m b n' v (snd m v b) sol' end).
  destruct (rf_route i gt gtl f (S n) u v [0%nat; 0%nat]) as [route|] eqn:Er; [|discriminate].
  rewrite (rf_route_more _ _ _ _ (S n) (S n') _ _ _ _ ltac:(lia) Er). cbv zeta in *. destruct (Nat.eqb v b); [exact E|]. apply IH; [lia|exact E].
Qed.
Lemma rfcs_more ceps seps N d C L minimize_K gen f g n n' r : (n <= n')%nat ->
  rfcs_init ceps seps N d C L minimize_K gen f g None n = Some r -> rfcs_init ceps seps N d C L minimize_K gen f g None n' = Some r.
Proof.
  intros Hn. unfold rfcs_init. destruct (N <=? 2)%nat; [easy|]. destruct (gen (range 1 N)) as [gt len]. unfold rf_partition, rf_sol.
  destruct (rf_routes _ _ _ _ _ _ _ n _ _ _) as [x|] eqn:E; [|discriminate]. now rewrite (rf_routes_more _ _ _ _ _ _ _ n n' _ _ _ _ Hn E).
Qed.

(** ** Gillett and Miller's sweep *)
Lemma gm_total eps N D d C L f order score : Spec_all.problem N D d C L eps -> solver N D (f D) -> Permutation order (seq 1 (N - 1)) ->
  ~ limit_set C \/ ~ limit_set L \/ no_dearer N (f D) -> forall minimize_K rho dir sd, seed_ok N rho sd ->
  exists rs, serves N D d C L eps eps rs /\
    ends_with (gillet_miller_init eps eps N D d C L minimize_K f order score rho dir sd) (SwReturns (Some (encode rs))) /\
    (exists ccw p, goes dir ccw /\ starts_at N order rho sd p /\ gm_gives eps eps N D d C L f order score ccw p rs) /\
    forall ccw p, goes dir ccw -> starts_at N order rho sd p ->
      exists rs', gm_gives eps eps N D d C L f order score ccw p rs' /\ serves N D d C L eps eps rs' /\ not_beaten minimize_K D rs rs'.
Proof.
  intros [P1 P2 P3 P4 P5 P6 P7 P8] Hf Ho Hl minimize_K rho dir sd Hsd.
  assert (HE : exists fuel0 res, forall fuel, (fuel0 <= fuel)%nat -> gillet_miller_init eps eps N D d C L minimize_K f order score rho dir sd fuel = Some res).
  { assert (Hplain : is_set C = false \/ is_set L = false -> exists fuel0 res, forall fuel, (fuel0 <= fuel)%nat ->
      gillet_miller_init eps eps N D d C L minimize_K f order score rho dir sd fuel = Some res).
    { intros Hx. destruct (C31_sweep eps eps N D d C L (f D) order Hf P8 Ho ltac:(auto) minimize_K rho dir sd P1 Hsd) as (k & rs & E & _).
      exists k, (SwReturns (Some (encode rs))). intros fuel Hk. rewrite (C62_plain_sweep eps eps N D d C L f order Hx); [now apply E|].
      intros x Hin. apply (Permutation_in _ Ho), in_seq in Hin. lia. }
    assert (Hset : forall lim, ~ limit_set lim -> is_set lim = false).
    { intros [c|] Hn; [|reflexivity]. unfold is_set. cbn in *. destruct (Z.eqb_spec c 0); [reflexivity|tauto]. }
    destruct Hl as [Hl|[Hl|Hl]]; [apply Hplain; left; now apply Hset|apply Hplain; right; now apply Hset|].
    now apply (C62_ends_partial eps eps N D d C L f order score Hf P8 Ho ltac:(auto) Hl minimize_K rho dir sd). }
  destruct HE as (k & res & E).
  destruct (C62_result eps eps N D d C L f order score Hf P8 Ho ltac:(auto) minimize_K rho dir sd k res P1 Hsd (E k ltac:(lia))) as (rs & -> & HS & HG & HB).
  exists rs. split; [exact HS|]. split; [exists k; exact E|]. split; [exact HG|exact HB].
Qed.
Lemma gm_gives_one ceps seps N D d C L f order score ccw p rs rs' :
  gm_gives ceps seps N D d C L f order score ccw p rs -> gm_gives ceps seps N D d C L f order score ccw p rs' -> rs = rs'.
Proof.
  intros (k & l & H & E & HC) (k' & l' & H' & E' & HC'). specialize (H (k + k')%nat ltac:(lia)). specialize (H' (k + k')%nat ltac:(lia)).
  apply encode_inj; [exact HC|exact HC'|congruence].
Qed.
Lemma gm_seeds N rho single : (2 <= N)%nat -> seed_ok N rho (if single : bool then SeedNode 1 else M_sweep.BestAlternative).
Proof. intros H. destruct single; [|exact I]. cbn. rewrite Nat.mod_small by lia. discriminate. Qed.

Section Calls.
Variables (s : surroundings) (eps : Z) (N : nat) (D : matrix) (d : demands) (C L : limit).
Hypothesis HP : Spec_all.problem N D d C L eps.
Let call h single minimize_K := call_init h s eps N D d C L single minimize_K.

Lemma calls_end h single minimize_K : fits h s N D d C L -> minimize_K = false \/ ~ refuses_minimize_K h ->
  exists rs, serves N D d C L eps eps rs /\ ends_with (call h single minimize_K) (Returns (Some (encode rs))).
Proof using All.
  destruct HP as [P1 P2 P3 P4 P5 P6 P7 P8]. intros HF HR. unfold call. destruct h; cbn [fits] in HF.
  - destruct (C39_parallel eps eps N D d C L minimize_K _ P1 P3 P8 (C25_clarke_wright_list N D)) as (rs & E & HS).
    exists rs. split; [exact HS|]. apply always. intros fuel. cbn [call_init]. now rewrite E.
  - destruct (C73_result eps eps N D d C L minimize_K P1 P2 P3 P7 P8) as (_ & rs & fuel0 & _ & E & A & B & HC & _).
    exists rs. split; [repeat split; assumption|]. exists fuel0. intros fuel Hf. cbn [call_init]. now rewrite (E fuel Hf).
  - destruct (C39_gaskell eps eps N D d C L minimize_K (if single then Pi else Both) P1 P3 P8) as (rs & E & HS & _).
    exists rs. split; [exact HS|]. apply always. intros fuel. cbn [call_init]. now rewrite E.
  - destruct (C27_seed_orders N D M_ssavings.Closest ltac:(discriminate) P1) as (seeds & Es & Hs).
    destruct (C27_sequential_savings eps eps D d C L minimize_K (clarke_wright_seq D) P3 N seeds P8 Hs) as (rs & E & A & B & HC & _).
    exists rs. split; [repeat split; assumption|]. apply always. intros fuel. cbn [call_init]. now rewrite Es, E.
  - destruct (C39_paessens eps eps N D d C L minimize_K M4 true P1 P3 P8 P5 P7 P2 ltac:(discriminate)) as (rs & fuel0 & E & HS & _).
    exists rs. split; [exact HS|]. exists fuel0. intros fuel Hf. cbn [call_init]. now rewrite (E fuel Hf).
  - destruct (C39_suppression eps eps N D d C L minimize_K None HF P3 P8 ltac:(discriminate)) as (rs & E & HS & _).
    exists rs. split; [exact HS|]. apply always. intros fuel. cbn [call_init]. now rewrite E.
  - assert (HX : single_seeds D M_cins.Farthest (param_criteria 1 1 0 D)) by (left; discriminate).
    destruct (C30_served_within_limits_partial eps eps N D d C L minimize_K 1 M_cins.Farthest _ (s_ident s) N P7 HX P8 ltac:(lia) ltac:(lia)) as (rs & pts & E & HS & _).
    exists rs. split; [exact HS|]. exists N. intros fuel Hf. cbn [call_init]. now rewrite (insertion_more _ _ _ _ _ _ _ _ _ _ _ _ N fuel _ Hf E).
  - destruct (C52_serves_optimised_and_best eps N D d C L minimize_K P2 HF P6 P7 P1 P8) as (fuel0 & H).
    destruct (H fuel0 ltac:(lia) (s_ident_mj s) (if single then ClarkeWright else AllCriteria)) as (rs & E & HS & _).
    exists rs. split; [exact HS|]. exists fuel0. intros fuel Hf. cbn [call_init]. now rewrite (mj_more _ _ _ _ _ _ _ _ fuel0 fuel Hf _ _ E).
  - destruct (C30_parallel_with_automatic_number_of_routes eps eps N D d C L minimize_K P7 (s_ident s) (s_ident' s) N ltac:(lia)) as (rs & E & A & B & HC).
    exists rs. split; [repeat split; [exact A|exact B|exact (HC P8)]|]. exists N. intros fuel Hf. cbn [call_init]. now rewrite (parallel_more _ _ _ _ _ _ _ _ _ _ N fuel _ Hf E).
  - destruct HF as [HF1 HF2].
    assert (Ho : forall t : nat, Permutation (range 1 N) (seq 1 (N - 1)) /\ Permutation (range 1 N) (seq 1 (N - 1)) /\ forall p K : nat, Permutation (range 0 K) (seq 0 K)).
    { intros t. unfold range. split; [apply Permutation_refl|]. split; [apply Permutation_refl|]. intros _ K. unfold range. rewrite Nat.sub_0_r. apply Permutation_refl. }
    destruct (C78_result eps eps N D d C L (s_solve_tsp s) minimize_K (2, 1) (1, 1) FarthestSeed true (Times 1) (fun _ => range 1 N) (fun _ => range 1 N) (fun _ _ K => range 0 K) (s_argpartition s) None P8 HF1 HF2 Ho ltac:(discriminate)) as (rs & ints & fuel0 & E & HS & _).
    exists rs. split; [exact HS|]. exists fuel0. intros fuel Hf. cbn [call_init]. now rewrite (E fuel Hf).
  - destruct HR as [->|HR]; [|exfalso; apply HR; now left].
    destruct (C108_single_run eps eps N D d C L P1 HF P8 false (fun _ => None) eq_refl) as (rs & _ & HS & _ & fuel0 & E).
    exists rs. split; [exact HS|]. exists fuel0. intros fuel Hf. cbn [call_init]. now rewrite (E fuel Hf).
  - destruct HR as [->|HR]; [|exfalso; apply HR; right; now left]. destruct single.
    + destruct (C108_single_run eps eps N D d C L P1 HF P8 false (fun _ => None) eq_refl) as (rs & _ & HS & (fuel0 & E) & _).
      exists rs. split; [exact HS|]. exists fuel0. intros fuel Hf. cbn [call_init]. now rewrite (E fuel Hf).
    + destruct (C108_best_of_all_tries eps eps N D d C L P1 HF P8) as (rs1 & _ & _ & b & rs & _ & _ & HS & (fuel0 & E) & _).
      exists rs. split; [exact HS|]. exists fuel0. intros fuel Hf. cbn [call_init]. now rewrite (E fuel Hf).
  - destruct HR as [->|HR]; [|exfalso; apply HR; right; right; now left]. destruct HF as (HF1 & HF2 & HF3 & HF4 & HF5).
    assert (HF3' : (3 <= N)%nat \/ (2 <= N)%nat /\ ~ limit_set C) by tauto.
    destruct (C59_serves_everyone_partial eps eps N D d C L false true MinPenalty (s_solve_tsp s) P7 HF2 HF3' HF1 P8 HF4 HF5) as (rs & first & fuel0 & _ & HS & _ & E).
    exists rs. split; [exact HS|]. exists fuel0. intros fuel Hf. cbn [call_init]. now rewrite (E fuel Hf).
  - destruct HF as (HL & HF1 & HF2).
    assert (HX := C110_sweep_of_points (s_argsort s) (s_points s) eps eps D d C L (in_sweep_order D) minimize_K (if single then CW else BothWays)
                   (if single then SmallestAngle else M_sweep.BestAlternative)).
    cbv zeta in HX. rewrite HL in HX. destruct (HX HF2 HF1 P1 (C31_default_routing N D) P8 ltac:(auto)) as (order & rs & _ & _ & (fuel0 & E) & HS & _); [now destruct single|].
    exists rs. split; [exact HS|]. exists fuel0. intros fuel Hf. cbn [call_init]. now rewrite (E fuel Hf).
  - destruct HF as (HL & HF1 & HF2 & HF3 & HF4). assert (Hne : s_points s <> []) by (intros E; rewrite E in HL; cbn in HL; lia).
    destruct (C110_points (s_argsort s) HF2 (s_points s) Hne HF1) as (rho & order & Er & Ho & _). rewrite HL in Ho.
    destruct (gm_total eps N D d C L (s_3opt s) order (s_score s) HP HF3 Ho HF4 minimize_K rho (if single then CCW else BothWays) _ (gm_seeds N rho single P1)) as (rs & HS & (fuel0 & E) & _).
    exists rs. split; [exact HS|]. exists fuel0. intros fuel Hf. cbn [call_init]. rewrite Er. now rewrite (E fuel Hf).
  - destruct (Nat.eq_dec N 2) as [EN|EN].
    { exists [[1%nat]]. split.
      - rewrite EN in *. split; [apply Permutation_refl|]. split; [constructor; [discriminate|constructor]|]. constructor; [|constructor].
        exact (P8 1%nat ltac:(lia)).
      - apply always. intros fuel. cbn [call_init]. unfold rfcs_init. rewrite EN. reflexivity. }
    destruct HF as [HF|(tour & gt & len & Eg & HG & Hlen & Hgr & Hf & Hg)]; [contradiction|].
    destruct (C40_result_partial N D d C L eps eps minimize_K (s_solve_tsp s) (s_2opt s D) (s_3opt s D) tour gt len ltac:(lia) Eg HG Hlen Hgr Hf Hg P8 N ltac:(lia)) as (ss & rs & E & HS & _).
    exists rs. split; [exact HS|]. exists N. intros fuel Hfu. cbn [call_init]. now rewrite (rfcs_more _ _ _ _ _ _ _ _ _ _ N fuel _ Hfu E).
  - destruct HR as [->|HR]; [|exfalso; apply HR; now right; right; right]. destruct HF as [HF1 HF2].
    destruct (C122_ends_partial eps N D d C L (s_inf s) (s_solve_tsp s) HP HF1 HF2) as (rs & HS & (fuel0 & E)).
    exists rs. split; [exact HS|]. exists fuel0. intros fuel Hf. cbn [call_init]. unfold lr3opt_call. now rewrite (E fuel Hf).
Qed.
End Calls.

Lemma calls_refuse h s eps N D d C L single : refuses_minimize_K h -> forall fuel, call_init h s eps N D d C L single true fuel = Some Raises.
Proof. intros [->|[->|[->| ->]]] fuel; reflexivity. Qed.

Lemma bundled eps N D : 0 <= eps -> symmetric D -> exists fuel0, forall fuel, (fuel0 <= fuel)%nat ->
  let f := as_tsp (fun l => solve_tsp_ropt eps fuel D l None true true) in
  let f2 := as_tsp (solve_tsp_2opt eps fuel D) in let f3 := as_tsp (solve_tsp_3opt eps fuel D) in
  solver N D f /\ shortens N D f /\ solver N D f2 /\ solver N D f3 /\ improver N D f3.
Proof.
  intros He Hs. destruct (ropt_solver eps D N true true He Hs) as [k1 H1]. destruct (ropt_shortens eps D N true true He Hs) as [k2 H2].
  destruct (ropt_solver eps D N true false He Hs) as [k3 H3]. destruct (ropt_solver eps D N false true He Hs) as [k4 H4].
  exists (k1 + k2 + k3 + k4)%nat. intros fuel Hf. split; [apply H1; lia|]. split; [apply H2; lia|]. split; [apply H3; lia|]. split; apply H4; lia.
Qed.

(** ** VeRyPy.py with these heuristics *)
Section Main.
Variables (eps : Z) (o : options) (single minimize_K : bool) (named : nat -> heuristic) (around : M_cli.problem -> surroundings).
Variables (run : nat -> M_cli.problem -> algo_outcome) (ps : list M_cli.problem) (algos : list nat).
Hypothesis Heps : 0 <= eps.
Hypothesis Hops : forall op, In op (o_ls o) -> (op <= 3)%nat.
Hypothesis Hsim : o_simulate o = false.
Hypothesis Hps : Forall proper_problem ps.
Hypothesis Hpr : Forall (printable o) ps.
Hypothesis Hprob : forall p, In p ps -> Spec_all.problem (p_N p) (p_Dc p) (p_d p) (p_C p) (p_L p) eps.
Hypothesis Hfit : forall p a, In p ps -> In a algos -> fits (named a) (around p) (p_N p) (p_Dc p) (p_d p) (p_C p) (p_L p).
Hypothesis Hmk : minimize_K = false \/ forall a, In a algos -> ~ refuses_minimize_K (named a).
Hypothesis Hrun : forall p a, In p ps -> In a algos ->
  ends_with (call_init (named a) (around p) eps (p_N p) (p_Dc p) (p_d p) (p_C p) (p_L p) single minimize_K) (run a p).

Lemma run_is p a : In p ps -> In a algos -> exists rs, serves (p_N p) (p_Dc p) (p_d p) (p_C p) (p_L p) eps eps rs /\ run a p = Returns (Some (encode rs)).
Proof using Hprob Hfit Hmk Hrun.
  intros Hp Ha. assert (HK : minimize_K = false \/ ~ refuses_minimize_K (named a)) by (destruct Hmk as [H|H]; [now left|right; now apply H]).
  destruct (calls_end (around p) eps _ _ _ _ _ (Hprob p Hp) (named a) single minimize_K (Hfit p a Hp Ha) HK) as (rs & HS & HE).
  exists rs. split; [exact HS|]. exact (ends_same _ _ _ (Hrun p a Hp Ha) HE).
Qed.

Lemma run_proper p a : In p ps -> In a algos -> proper_outcome (p_N p) (run a p).
Proof using Hprob Hfit Hmk Hrun.
  intros Hp Ha. destruct (run_is p a Hp Ha) as (rs & (A & B & HC) & ->). intros s' [= <-]. right. exists rs. split; [reflexivity|].
  apply (serves_proper _ (p_Dc p) (p_d p) (p_C p) (p_L p) eps); [apply (pb_size _ _ _ _ _ _ (Hprob p Hp))|split; assumption].
Qed.

Lemma none_stops : forall jobs, (forall p a, In (p, a) jobs -> In p ps /\ In a algos) ->
  until_interrupt (stops o run) jobs = jobs /\ existsb (stops o run) jobs = false.
Proof using Hsim Hprob Hfit Hmk Hrun.
  induction jobs as [|[p a] jobs IH]; intros H; [split; reflexivity|]. destruct (IH (fun q b X => H q b (or_intror X))) as [E1 E2].
  destruct (H p a (or_introl eq_refl)) as [Hp Ha]. destruct (run_is p a Hp Ha) as (rs & _ & Er).
  assert (Es : stops o run (p, a) = false) by (unfold stops; cbn [fst snd]; rewrite Er; now destruct (o_simulate o)).
  cbn [until_interrupt existsb]. rewrite Es, E2. split; [now rewrite E1|reflexivity].
Qed.

Lemma all_solved : exists fuel0 reports,
  (forall fuel, (fuel0 <= fuel)%nat -> main eps o run ps algos fuel = (reports, AllDone)) /\
  Forall2 (fun (job : M_cli.problem * nat) r => let p := fst job in
    exists rs, r = Solved (p_file p) (snd job) (encode rs) true (routes_cost (shown_matrix o p) rs) (length rs) false /\
      serves (p_N p) (p_Dc p) (p_d p) (p_C p) (p_L p) eps eps rs) (list_prod ps algos) reports.
Proof using All.
  destruct (P_cli3.main_loop eps o Heps Hops run ps algos Hps run_proper Hpr) as (fuel0 & reports & HF & HM).
  assert (Hin : forall p a, In (p, a) (list_prod ps algos) -> In p ps /\ In a algos) by (intros p a X; now apply in_prod_iff in X).
  destruct (none_stops (list_prod ps algos) Hin) as [E1 E2]. rewrite E1 in HF. rewrite E2 in HM. exists fuel0, reports. split; [exact HM|].
  revert Hin HF. generalize (list_prod ps algos). clear -Heps Hops Hsim Hprob Hfit Hmk Hrun. intros jobs Hin HF. induction HF as [|[p a] r jobs rs HJ HF IH]; [constructor|].
  constructor; [|apply IH; intros q b X; apply Hin; now right]. cbn [fst snd]. destruct (Hin p a (or_introl eq_refl)) as [Hp Ha].
  destruct (run_is p a Hp Ha) as (rs1 & HS1 & Er). unfold job_report in HJ. rewrite Hsim, Er in HJ. cbn [found interrupted] in HJ.
  destruct (encode rs1) as [|x l] eqn:E1; [now destruct rs1|]. rewrite <- E1 in HJ.
  destruct HJ as (rs0 & E & HP & ns & ok & E2 & Hne & HL & HPm & Hok & Hgood & _).
  assert (HC1 : covers (p_N p) rs1) by apply HS1.
  assert (Hsame : rs0 = rs1).
  { apply encode_inj; [|apply (P_savfam.covers_only (p_N p)), HS1|congruence]. destruct HP as ((_ & HP) & _). apply Forall_forall. intros q Hq. unfold customers_only in *.
    rewrite Forall_forall in *. intros c Hc. apply HP. apply in_concat. now exists q. }
  subst rs0. assert (HFd : Forall (feasible (p_Dc p) (p_d p) (p_C p) (p_L p) eps eps) (driven rs1)) by apply driven_forall, HS1.
  specialize (Hgood HC1 HFd). subst ok. exists ns. split; [exact E2|]. destruct (proj1 Hok eq_refl) as (A & B). repeat split; assumption.
Qed.
End Main.

(** ** The single iteration *)
Lemma not_beaten_self minimize_K D rs : not_beaten minimize_K D rs rs.
Proof. unfold not_beaten, Spec.beats. destruct minimize_K; lia. Qed.

Lemma sweep_gives_one ceps seps D d C L f order ccw p rs rs' :
  sweep_gives ceps seps D d C L f order ccw p rs -> sweep_gives ceps seps D d C L f order ccw p rs' -> rs = rs'.
Proof.
  intros (k & l & H & E & HC) (k' & l' & H' & E' & HC'). specialize (H (k + k')%nat ltac:(lia)). specialize (H' (k + k')%nat ltac:(lia)).
  apply encode_inj; [exact HC|exact HC'|congruence].
Qed.

Section Single.
Variables (s : surroundings) (eps : Z) (N : nat) (D : matrix) (d : demands) (C L : limit).
Hypothesis HP : Spec_all.problem N D d C L eps.

Lemma single_no_better h minimize_K : Spec_algos.fits h s N D d C L -> minimize_K = false \/ ~ refuses_minimize_K h ->
  exists rs rs1, serves N D d C L eps eps rs /\ serves N D d C L eps eps rs1 /\
    ends_with (call_init h s eps N D d C L false minimize_K) (Returns (Some (encode rs))) /\
    ends_with (call_init h s eps N D d C L true minimize_K) (Returns (Some (encode rs1))) /\ not_beaten minimize_K D rs rs1.
Proof using All.
  intros HF HR. destruct (calls_end s eps N D d C L HP h false minimize_K HF HR) as (rs & HS & HE).
  destruct (calls_end s eps N D d C L HP h true minimize_K HF HR) as (rs1 & HS1 & HE1).
  exists rs, rs1. split; [exact HS|]. split; [exact HS1|]. split; [exact HE|]. split; [exact HE1|].
  assert (Hc : Forall customers_only rs) by (apply (P_savfam.covers_only N), HS).
  assert (Hc1 : Forall customers_only rs1) by (apply (P_savfam.covers_only N), HS1).
  assert (Same : forall q, Forall customers_only q -> ends_with (call_init h s eps N D d C L false minimize_K) (Returns (Some (encode q))) -> rs = q).
  { intros q Hq Eq. pose proof (ends_same _ _ _ HE Eq) as E. apply encode_inj; [assumption|assumption|congruence]. }
  assert (Same1 : forall q, Forall customers_only q -> ends_with (call_init h s eps N D d C L true minimize_K) (Returns (Some (encode q))) -> rs1 = q).
  { intros q Hq Eq. pose proof (ends_same _ _ _ HE1 Eq) as E. apply encode_inj; [assumption|assumption|congruence]. }
  pose proof HP as HP0. destruct HP as [P1 P2 P3 P4 P5 P6 P7 P8].
  destruct h; cbn [Spec_algos.fits] in HF; try (rewrite (Same1 rs Hc HE); apply not_beaten_self).
  - destruct (C44_gaskell eps eps N D d C L minimize_K P1 P3 P8) as (lam & pi & rl & rp & q & _ & _ & _ & _ & Hl & Hp & _ & E2 & E3 & Hq & _ & HB).
    rewrite (Same q), (Same1 rp); [exact HB|exact Hp| |destruct Hq as [->| ->]; assumption|].
    + apply always. intros fuel. cbn [call_init]. now rewrite E2.
    + apply always. intros fuel. cbn [call_init]. now rewrite E3.
  - destruct (C52_serves_optimised_and_best eps N D d C L minimize_K P2 HF P6 P7 P1 P8) as (fuel0 & H).
    destruct (H fuel0 ltac:(lia) (s_ident_mj s) AllCriteria) as (q & E & HSq & _ & HT).
    destruct (HT (8, 4, M_cins.Strain)) as (rs0 & pts & q1 & _ & _ & _ & E1 & HS1' & HB).
    { apply C52_criteria. cbn. tauto. }
    rewrite (Same q), (Same1 q1); [exact HB|apply (P_savfam.covers_only N), HS1'| |apply (P_savfam.covers_only N), HSq|].
    + exists fuel0. intros fuel Hf. cbn [call_init]. unfold mole_jameson_insertion_init. cbn [configurations mj_runs].
      rewrite (mj_run_more _ _ _ _ _ _ _ _ fuel0 fuel Hf _ _ E1). reflexivity.
    + exists fuel0. intros fuel Hf. cbn [call_init]. now rewrite (mj_more _ _ _ _ _ _ _ _ fuel0 fuel Hf _ _ E).
  - destruct HR as [->|HR]; [|exfalso; apply HR; right; now left].
    destruct (C108_best_of_all_tries eps eps N D d C L P1 HF P8) as (q1 & B1 & HSq1 & b & q & Hb & _ & HSq & (fuel0 & E) & HT).
    destruct (C108_single_run eps eps N D d C L P1 HF P8 false (fun _ => None) eq_refl) as (q2 & B2 & HSq2 & (fuel2 & E2) & _).
    destruct (HT 1%nat ltac:(lia)) as (q3 & B3 & HSq3 & HB & _).
    assert (Eq : q2 = q3).
    { destruct B2 as (pts & k & X). destruct B3 as (pts' & k' & X'). specialize (X (k + k')%nat ltac:(lia)). specialize (X' (k + k')%nat ltac:(lia)).
      apply encode_inj; [apply (P_savfam.covers_only N), HSq2|apply (P_savfam.covers_only N), HSq3|congruence]. }
    rewrite (Same q), (Same1 q2); [|apply (P_savfam.covers_only N), HSq2| |apply (P_savfam.covers_only N), HSq|].
    + subst q3. unfold not_beaten, Spec.beats. lia.
    + exists fuel2. intros fuel Hf. cbn [call_init]. now rewrite (E2 fuel Hf).
    + exists fuel0. intros fuel Hf. cbn [call_init]. now rewrite (E fuel Hf).
  - destruct HF as (HL & HF1 & HF2). assert (Hne : s_points s <> []) by (intros E; rewrite E in HL; cbn in HL; lia).
    destruct (C110_points (s_argsort s) HF2 (s_points s) Hne HF1) as (rho & order & Er & Ho & _). rewrite HL in Ho.
    destruct (C31_sweep eps eps N D d C L (in_sweep_order D) order (C31_default_routing N D) P8 Ho ltac:(auto) minimize_K rho BothWays M_sweep.BestAlternative P1 I) as (k & q & E & HSq & _ & HT).
    destruct (C31_sweep eps eps N D d C L (in_sweep_order D) order (C31_default_routing N D) P8 Ho ltac:(auto) minimize_K rho CW SmallestAngle P1 I) as (k1 & q1 & E1 & HSq1 & (ccw & p & Hccw & Hp & HG) & _).
    cbn [goes starts_at] in Hccw, Hp. subst ccw p. destruct (HT false 0%nat I ltac:(cbn; lia)) as (q2 & HG2 & HSq2 & HB).
    rewrite <- (sweep_gives_one _ _ _ _ _ _ _ _ _ _ _ _ HG HG2) in HB.
    rewrite (Same q), (Same1 q1); [exact HB|apply (P_savfam.covers_only N), HSq1| |apply (P_savfam.covers_only N), HSq|].
    + exists k1. intros fuel Hf. cbn [call_init]. unfold sweep_init_at. rewrite Er. now rewrite (E1 fuel Hf).
    + exists k. intros fuel Hf. cbn [call_init]. unfold sweep_init_at. rewrite Er. now rewrite (E fuel Hf).
  - destruct HF as (HL & HF1 & HF2 & HF3 & HF4). assert (Hne : s_points s <> []) by (intros E; rewrite E in HL; cbn in HL; lia).
    destruct (C110_points (s_argsort s) HF2 (s_points s) Hne HF1) as (rho & order & Er & Ho & _). rewrite HL in Ho.
    destruct (gm_total eps N D d C L (s_3opt s) order (s_score s) HP0 HF3 Ho HF4 minimize_K rho BothWays _ (gm_seeds N rho false P1)) as (q & HSq & (k & E) & _ & HT).
    destruct (gm_total eps N D d C L (s_3opt s) order (s_score s) HP0 HF3 Ho HF4 minimize_K rho CCW _ (gm_seeds N rho true P1)) as (q1 & HSq1 & (k1 & E1) & (ccw & p & Hccw & Hp & HG) & _).
    cbn [goes starts_at] in Hccw, Hp. destruct (HT ccw p I) as (q2 & HG2 & HSq2 & HB).
    { cbn. rewrite <- (seq_length (N - 1) 1), <- (Permutation_length Ho). apply nth_error_Some. rewrite Hp. discriminate. }
    rewrite <- (gm_gives_one _ _ _ _ _ _ _ _ _ _ _ _ _ _ HG HG2) in HB.
    rewrite (Same q), (Same1 q1); [exact HB|apply (P_savfam.covers_only N), HSq1| |apply (P_savfam.covers_only N), HSq|].
    + exists k1. intros fuel Hf. cbn [call_init]. rewrite Er. now rewrite (E1 fuel Hf).
    + exists k. intros fuel Hf. cbn [call_init]. rewrite Er. now rewrite (E fuel Hf).
Qed.
End Single.
