(** * Interrupts in the suppression savings; calls without interrupts; lost interrupts *)
From Coq Require Import ZifyBool ZifyNat.
From Verif Require Import Spec Spec_inter Spec_ls Spec_savings PyBase M_util M_routedata M_driver M_psavings M_savfam M_savint Spec_savint
  P_base P_util P_cvrp P_psavings P_psavings2 P_savfam P_savfam2 P_savint P_savint2.

Section Supp.
Variables (ceps seps : Z) (N : nat) (D : matrix) (d : demands) (C L : limit) (mk : bool).
Hypothesis HN : (2 <= N)%nat.
Hypothesis Hsym : symmetric D.
Hypothesis Halone : served_alone N D d C L ceps seps.
Notation good := (okr ceps seps N D d C L mk).
Notation points := (ps_points ceps seps N D d C L mk).
Notation SL := (suppression_loop ceps seps N D d C L mk).
Notation SSL := (suppression_stopped_loop ceps seps N D d C L mk).
Definition seen_of (l : list (unit * list (list nat))) : list (unit * option (list (list nat))) := map (fun x => (fst x, Some (snd x))) l.

(** the runs before the interrupt *)
Lemma supp_prefix stops k : forall n t sup cache l best, (forall i, (t <= i < t + k)%nat -> stops i = None) ->
  (length sup + k <= length (all_pairs N))%nat -> (cache = [] \/ Permutation (map key cache) (all_pairs N)) -> binv mk D best (seen_of l) ->
  exists l' sup' cache' best', SSL stops t (k + n)%nat sup cache best = SSL stops (t + k)%nat n sup' cache' best' /\
    SL k sup cache (sols D l) = Some (sols D (l ++ l')) /\ Forall (fun x => good (snd x)) l' /\ length l' = k /\ binv mk D best' (seen_of (l ++ l')) /\
    length sup' = (length sup + k)%nat /\ (cache' = [] \/ Permutation (map key cache') (all_pairs N)) /\
    kth_savings N D k sup cache = kth_savings N D 0 sup' cache'.
Proof.
  induction k as [|k IH]; intros n t sup cache l best Hs HL HC HI.
  - exists [], sup, cache, best. rewrite app_nil_r, Nat.add_0_r. cbn [Nat.add suppression_loop length]. repeat split; try assumption; try lia. constructor.
  - destruct (suppression_function_ok N D sup cache) as (c & p & E & HP); [lia|exact HC|].
    destruct (ps_sol_ok ceps seps N D d C L mk HN Hsym Halone c (keys_valid N HN c HP)) as (rs & Es & Hrs).
    destruct (IH n (S t) (p :: sup) c (l ++ [(tt, rs)]) (keep_best D mk best tt (Some (encode rs)))) as (l' & sup' & cache' & best' & A1 & A2 & A3 & A4 & A5 & A6 & A7 & A8).
    + intros i Hi. apply Hs. lia.
    + cbn. lia.
    + now right.
    + unfold seen_of. rewrite map_app. apply (keep_best_inv mk D best (seen_of l) tt (Some rs)); [exact HI|]. intros q H. injection H as <-. now apply okr_customers in Hrs.
    + exists ((tt, rs) :: l'), sup', cache', best'. rewrite <- app_assoc in A2, A5. cbn [app] in A2, A5.
      split; [|split; [|split; [now constructor|split; [cbn; now rewrite A4|split; [exact A5|split; [cbn in A6; lia|split; [exact A7|]]]]]]].
      * cbn [Nat.add suppression_stopped_loop]. rewrite (Hs t) by lia. rewrite E. cbn [savings_run]. rewrite Es. cbn [option_map].
        rewrite A1. f_equal. lia.
      * cbn [suppression_loop]. rewrite E, Es.
        replace (sols D l ++ [candidate D tt (encode rs)]) with (sols D (l ++ [(tt, rs)])) by (unfold sols; now rewrite map_app). exact A2.
      * cbn [kth_savings]. rewrite E. exact A8.
Qed.

Lemma suppression_interrupted Lp stops k j savings pts p :
  (k < suppression_count N Lp)%nat -> (forall t, (t < k)%nat -> stops t = None) -> stops k = Some (In_savings j) ->
  kth_savings N D k [] [] = Some savings -> points savings = Some pts -> nth_error pts j = Some p -> fst p <> Extended ->
  exists rs, suppression_stopped ceps seps N D d C L mk Lp stops = Some (Interrupted (Some (encode rs))) /\
    serves N D d C L ceps seps rs /\ (mk = false -> routes_cost D rs <= routes_cost D (star_routes N)) /\
    (exists rs', interrupted_sol p = Some (encode rs') /\ not_beaten mk D rs rs') /\
    ((0 < k)%nat -> exists rs', suppression_savings_init ceps seps N D d C L mk (Some k) = Some (Some (encode rs')) /\ serves N D d C L ceps seps rs' /\ not_beaten mk D rs rs').
Proof.
  intros Hk Hs Hst Ek Ep Hj Hx. pose proof (count_bound N Lp) as HB.
  assert (Hcount : suppression_count N (Some k) = k).
  { unfold suppression_count in *. cbn zeta in *. apply Nat.min_l. etransitivity; [|apply Nat.le_min_r]. apply Nat.lt_le_incl. exact Hk. }
  destruct (supp_prefix stops k (suppression_count N Lp - k) 0 [] [] [] None) as (l & sup & cache & best & A1 & A2 & A3 & A4 & A5 & A6 & A7 & A8).
  { intros i Hi. apply Hs. lia. } { cbn. lia. } { now left. } { reflexivity. }
  replace (k + (suppression_count N Lp - k))%nat with (suppression_count N Lp) in A1 by lia.
  destruct (suppression_count N Lp - k)%nat as [|n] eqn:En; [lia|].
  destruct (suppression_function_ok N D sup cache) as (c & q & E & HP); [cbn in A6; lia|exact A7|].
  rewrite A8 in Ek. cbn [kth_savings] in Ek. rewrite E in Ek. injection Ek as ->.
  destruct (point_good ceps seps N D d C L mk HN Hsym Halone savings pts j p (keys_valid N HN savings HP) Ep Hj Hx) as (rsk & Es & Gk).
  cbn [app Nat.add] in *. cbn [suppression_stopped_loop] in A1. rewrite Hst, E in A1.
  rewrite (savings_run_stop ceps seps N D d C L mk savings j pts p _ Ep Hj Es) in A1.
  pose proof (keep_best_inv mk D best (seen_of l) tt (Some rsk) A5) as HI. cbn [option_map] in HI.
  specialize (HI ltac:(intros r H; injection H as <-; now apply okr_customers in Gk)).
  destruct (binv_some mk D _ _ tt rsk HI) as ([] & r & B1 & B2 & B3); [apply in_or_app; right; now left|].
  rewrite B1 in A1. exists r. split; [exact A1|].
  assert (Gr : good r).
  { apply in_app_or in B2. destruct B2 as [B2|[B2|[]]]; [|injection B2 as <-; exact Gk].
    apply in_map_iff in B2. destruct B2 as ([[] r'] & Er & Hin). cbn in Er. injection Er as <-. rewrite Forall_forall in A3. exact (A3 _ Hin). }
  destruct Gr as (G1 & G2). split; [exact G1|]. split; [exact G2|]. split; [exists rsk; split; [exact Es|]; apply (B3 tt); apply in_or_app; right; now left|].
  intros Hpos. destruct (best_sols mk D l) as ([] & r' & Hin & Eb & _).
  { intros ->. cbn in A4. lia. } { eapply Forall_impl; [|exact A3]. intros x Hx'. now apply okr_customers in Hx'. }
  exists r'. rewrite Forall_forall in A3. destruct (A3 _ Hin) as (G' & _). cbn [snd] in G'.
  split; [|split; [exact G'|]].
  - unfold suppression_savings_init. rewrite Hcount.
    change (@nil (unit * list nat * Z * nat)) with (sols D (@nil (unit * list (list nat)))). rewrite A2, Eb. reflexivity.
  - apply (B3 tt). apply in_or_app. left. apply in_map_iff. now exists (tt, r').
Qed.

(** ** Without interrupts *)
Definition corr {A} (b : option (A * list nat * Z * nat)) : best_state A :=
  option_map (fun c => let '(p, s, f, K) := c in (p, Some (s, f, K))) b.
Lemma best_sol_corr {A} (b : option (A * list nat * Z * nat)) : best_sol (corr b) = option_map (fun c => snd (fst (fst c))) b.
Proof. destruct b as [[[[p s] f] K]|]; reflexivity. Qed.
Lemma keep_corr {A} (b : option (A * list nat * Z * nat)) p rs : Forall customers_only rs ->
  keep_best D mk (corr b) p (Some (encode rs)) = corr (best_step mk b (candidate D p (encode rs))).
Proof.
  intros H. unfold keep_best. rewrite rate_encode, candidate_encode by assumption. destruct b as [[[[q s] f] K]|]; [|reflexivity].
  cbn [corr option_map better best_step]. now destruct (is_better_sol _ _ _ _ _).
Qed.
Lemma runs_free {A} (run : A -> option stop -> option run_end) (l : list (A * list (list nat))) :
  Forall (fun x => Forall customers_only (snd x) /\ run (fst x) None = Some (Some (encode (snd x)), false)) l ->
  forall t b, stopped_runs D mk run (fun _ => None) t (map fst l) (corr b) = Some (inl (corr (fold_left (best_step mk) (sols D l) b))).
Proof.
  induction 1 as [|[p rs] l (H1 & H2) HF IH]; intros t b; [reflexivity|]. cbn [map fst snd stopped_runs sols fold_left] in *.
  rewrite H2. rewrite keep_corr by assumption. apply IH.
Qed.

Lemma gaskell_free m : gaskell_stopped ceps seps N D d C L mk m (fun _ => None) = option_map Returns (gaskell_savings_init ceps seps N D d C L mk m).
Proof.
  assert (H : exists l : list (list saving * list (list nat)), map fst l = gaskell_functions N D m /\
    Forall (fun x => Forall customers_only (snd x) /\ savings_run ceps seps N D d C L mk (fst x) None = Some (Some (encode (snd x)), false)) l /\
    all_some (map (ps_sol ceps seps N D d C L mk) (gaskell_functions N D m)) = Some (map (fun x => encode (snd x)) l)).
  { assert (HV := gaskell_valid N D HN m). revert HV. generalize (gaskell_functions N D m). induction l as [|f fs IH]; intros HV.
    - exists []. split; [reflexivity|]. split; [constructor|reflexivity].
    - destruct IH as (l & E1 & E2 & E3); [intros g Hg; apply HV; now right|].
      destruct (ps_sol_ok ceps seps N D d C L mk HN Hsym Halone f (HV f (or_introl eq_refl))) as (rs & E & Hrs).
      exists ((f, rs) :: l). split; [cbn; now rewrite E1|]. split.
      + constructor; [|exact E2]. split; [now apply okr_customers in Hrs|]. cbn [fst snd savings_run]. now rewrite E.
      + cbn. rewrite E, E3. reflexivity. }
  destruct H as (l & E1 & E2 & E3). unfold gaskell_stopped, gaskell_savings_init. rewrite E3. rewrite <- E1.
  rewrite (runs_free _ l E2 0 None : stopped_runs D mk _ _ _ _ None = _). cbn [option_map end_of]. rewrite best_sol_corr. do 3 f_equal.
  unfold best_of. assert (X : forall b b2, option_map (fun c => snd (fst (fst c))) b = option_map (fun c : unit * list nat * Z * nat => snd (fst (fst c))) b2 ->
     option_map (fun c => (snd (fst c), snd c)) b = option_map (fun c => (snd (fst c), snd c)) b2 ->
     option_map (fun c => snd (fst (fst c))) (fold_left (best_step mk) (sols D l) b) =
     option_map (fun c => snd (fst (fst c))) (fold_left (best_step mk) (map (candidate D tt) (map (fun x => encode (snd x)) l)) b2)).
  { clear. induction l as [|[f rs] l IH]; intros b b2 H1 H2; [exact H1|]. cbn [sols map fold_left fst snd]. apply IH.
    - unfold candidate, best_step. destruct b as [[[[? ?] ?] ?]|], b2 as [[[[? ?] ?] ?]|]; cbn [option_map fst snd] in *; try discriminate; [|reflexivity].
      injection H2 as <- <-. destruct (is_better_sol _ _ _ _ _); [reflexivity|exact H1].
    - unfold candidate, best_step. destruct b as [[[[? ?] ?] ?]|], b2 as [[[[? ?] ?] ?]|]; cbn [option_map fst snd] in *; try discriminate; [|reflexivity].
      injection H2 as <- <-. destruct (is_better_sol _ _ _ _ _); reflexivity. }
  now apply X.
Qed.

Lemma suppression_free Lp : suppression_stopped ceps seps N D d C L mk Lp (fun _ => None) = option_map Returns (suppression_savings_init ceps seps N D d C L mk Lp).
Proof.
  unfold suppression_stopped, suppression_savings_init. pose proof (count_bound N Lp) as HB.
  assert (G : forall n t sup cache l, (length sup + n <= length (all_pairs N))%nat -> (cache = [] \/ Permutation (map key cache) (all_pairs N)) ->
     SSL (fun _ => None) t n sup cache (corr (best_of mk (sols D l))) =
     match SL n sup cache (sols D l) with None => None | Some c => Some (Returns (option_map (fun c => snd (fst (fst c))) (best_of mk c))) end).
  { induction n as [|n IH]; intros t sup cache l HL HC.
    - cbn [suppression_stopped_loop suppression_loop]. now rewrite best_sol_corr.
    - cbn [suppression_stopped_loop suppression_loop].
      destruct (suppression_function_ok N D sup cache) as (c & p & E & HP); [lia|exact HC|]. rewrite E. cbn [savings_run].
      destruct (ps_sol_ok ceps seps N D d C L mk HN Hsym Halone c (keys_valid N HN c HP)) as (rs & Es & Hrs). rewrite Es. cbn [option_map].
      rewrite keep_corr by (now apply okr_customers in Hrs).
      replace (sols D l ++ [candidate D tt (encode rs)]) with (sols D (l ++ [(tt, rs)])) by (unfold sols; now rewrite map_app).
      replace (best_step mk (best_of mk (sols D l)) (candidate D tt (encode rs))) with (best_of mk (sols D (l ++ [(tt, rs)]))).
      + apply IH; [cbn; lia|now right].
      + unfold best_of, sols. rewrite map_app, fold_left_app. reflexivity. }
  specialize (G (suppression_count N Lp) 0%nat [] [] [] HB (or_introl eq_refl)). cbn [sols map] in G.
  change (corr (best_of mk [])) with (@None (unit * option (list nat * Z * nat))) in G. rewrite G.
  now destruct (SL _ _ _ _).
Qed.

Hypothesis HD0 : D 0%nat 0%nat = 0.
Hypothesis Hd0 : d 0%nat = 0.
Hypothesis He : 0 <= seps.
Variable do3 : bool.

Lemma paessens_free s : base_parameters s <> [] -> exists fuel0, forall fuel, (fuel0 <= fuel)%nat ->
  paessens_stopped seps ceps N D d C L mk s do3 fuel (fun _ => None) = option_map Returns (paessens_savings_init seps ceps N D d C L mk s do3 fuel).
Proof.
  intros Hne.
  assert (P : forall ps, exists l fuel0, map fst l = ps /\ (forall fuel, (fuel0 <= fuel)%nat -> paessens_runs seps ceps N D d C L mk do3 fuel ps = Some (sols D l)) /\
     forall fuel b t, (fuel0 <= fuel)%nat -> stopped_runs D mk (paessens_stopped_run seps ceps N D d C L mk do3 fuel) (fun _ => None) t ps (corr b) =
       Some (inl (corr (fold_left (best_step mk) (sols D l) b)))).
  { intros ps. destruct (paessens_runs_ok ceps seps N D d C L mk HN Hsym Halone HD0 Hd0 He do3 ps) as (l & f0 & E & H1 & H2).
    exists l, f0. split; [exact E|]. split; [exact H1|]. intros fuel b t Hf. rewrite <- E. apply runs_free.
    eapply Forall_impl; [|exact H2]. intros x (B1 & B2 & B3). split; [now apply okr_customers in B1|]. cbn [paessens_stopped_run]. now rewrite (B3 fuel Hf). }
  destruct s as [| |ps]; cbn [base_parameters] in *.
  - destruct (P m1_parameters) as (l & f0 & _ & E1 & E2). exists f0. intros fuel Hf. unfold paessens_stopped, paessens_savings_init. cbn [base_parameters]. rewrite (E1 fuel Hf).
    rewrite (E2 fuel None 0%nat Hf : stopped_runs D mk _ _ _ _ None = _). cbn [option_map end_of]. now rewrite best_sol_corr.
  - destruct (P m4_parameters) as (l & f0 & Em & E1 & E2).
    destruct (best_of mk (sols D l)) as [[[[p s] f] K]|] eqn:Eb.
    2: { pose proof (best_of_spec mk (sols D l)) as X. rewrite Eb in X. destruct l; [discriminate Em|discriminate X]. }
    destruct (P (m4_finetune p)) as (l2 & f1 & _ & F1 & F2). exists (Nat.max f0 f1). intros fuel Hf.
    unfold paessens_stopped, paessens_savings_init. rewrite (E1 fuel) by lia. rewrite Eb. cbn [fst snd]. rewrite (F1 fuel) by lia.
    rewrite (E2 fuel None 0%nat ltac:(lia) : stopped_runs D mk _ _ _ _ None = _). unfold best_of in Eb. rewrite Eb. cbn [corr option_map].
    rewrite (F2 fuel (Some (p, s, f, K)) 4%nat ltac:(lia) : stopped_runs D mk _ _ _ _ (Some (p, Some (s, f, K))) = _). cbn [option_map end_of]. rewrite best_sol_corr.
    unfold best_of. rewrite fold_left_app, Eb. reflexivity.
  - destruct (P ps) as (l & f0 & _ & E1 & E2). exists f0. intros fuel Hf. unfold paessens_stopped, paessens_savings_init. cbn [base_parameters]. rewrite (E1 fuel Hf).
    rewrite (E2 fuel None 0%nat Hf : stopped_runs D mk _ _ _ _ None = _). cbn [option_map end_of]. now rewrite best_sol_corr.
Qed.
End Supp.

(** ** Lost interrupts *)
Lemma paessens_lost seps ceps N D d C L mk s do3 fuel stops : (forall t j, stops t <> Some (In_savings j)) ->
  forall out, paessens_stopped seps ceps N D d C L mk s do3 fuel stops = Some out -> exists sol, out = Returns sol.
Proof.
  intros Hs out. assert (G : forall l t best x, stopped_runs D mk (paessens_stopped_run seps ceps N D d C L mk do3 fuel) stops t l best = Some x -> exists b, x = inl b).
  { intros l t best. apply runs_on. intros t' p _ o b. unfold paessens_stopped_run. destruct (stops t') as [[j| | |]|] eqn:E; [now destruct (Hs t' j)|congruence|congruence| |].
    - destruct (ps_sol _ _ _ _ _ _ _ _ _); cbn; congruence.
    - destruct (paessens_run _ _ _ _ _ _ _ _ _ _); cbn; congruence. }
  unfold paessens_stopped. destruct s.
  - destruct (stopped_runs _ _ _ _ _ _ _) as [x|] eqn:E; [|discriminate]. apply G in E. destruct E as (b & ->). cbn. intros H. injection H as <-. now eexists.
  - destruct (stopped_runs D mk _ stops 0 m4_parameters None) as [x|] eqn:E; [|discriminate]. apply G in E. destruct E as ([[p b]|] & ->); [|discriminate].
    destruct (stopped_runs D mk _ stops 4 _ _) as [y|] eqn:E; [|discriminate]. apply G in E. destruct E as (b' & ->). cbn. intros H. injection H as <-. now eexists.
  - destruct (stopped_runs _ _ _ _ _ _ _) as [x|] eqn:E; [|discriminate]. apply G in E. destruct E as (b & ->). cbn. intros H. injection H as <-. now eexists.
Qed.
Lemma gaskell_lost ceps seps N D d C L mk m stops : (forall t j, stops t <> Some (In_savings j)) ->
  forall out, gaskell_stopped ceps seps N D d C L mk m stops = Some out -> exists sol, out = Returns sol.
Proof.
  intros Hs out. unfold gaskell_stopped. destruct (stopped_runs _ _ _ _ _ _ _) as [x|] eqn:E; [|discriminate].
  apply runs_on in E.
  - destruct E as (b & ->). cbn. intros H. injection H as <-. now eexists.
  - intros t' p _ o b. unfold savings_run. destruct (stops t') as [[j| | |]|] eqn:E'; [now destruct (Hs t' j)|congruence|congruence| |]; destruct (ps_sol _ _ _ _ _ _ _ _ _); cbn; congruence.
Qed.
Lemma suppression_lost ceps seps N D d C L mk Lp stops : (forall t j, stops t <> Some (In_savings j)) ->
  forall out, suppression_stopped ceps seps N D d C L mk Lp stops = Some out -> exists sol, out = Returns sol.
Proof.
  intros Hs. unfold suppression_stopped.
  assert (G : forall n t sup cache best out, suppression_stopped_loop ceps seps N D d C L mk stops t n sup cache best = Some out -> exists sol, out = Returns sol).
  { induction n as [|n IH]; intros t sup cache best out; cbn [suppression_stopped_loop]; [intros H; injection H as <-; now eexists|].
    assert (Hon : forall c o b, savings_run ceps seps N D d C L mk c (stops t) = Some (o, b) -> b = false).
    { intros c o b. unfold savings_run. destruct (stops t) as [[j| | |]|] eqn:E'; [now destruct (Hs t j)|congruence|congruence| |]; destruct (ps_sol _ _ _ _ _ _ _ _ _); cbn; congruence. }
    destruct (stops t) as [[j| | |]|] eqn:E'; [now destruct (Hs t j)|apply IH| | |];
      (destruct (suppression_function N D sup cache) as [[c s]|]; [|discriminate];
       destruct (savings_run _ _ _ _ _ _ _ _ _ _) as [[o b]|] eqn:E; [|discriminate]; rewrite (Hon _ _ _ E); apply IH). }
  apply G.
Qed.
