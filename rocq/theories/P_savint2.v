(** * Interrupts in Gaskell's, Paessens' and the suppression savings *)
From Coq Require Import ZifyBool ZifyNat.
From Verif Require Import Spec Spec_inter Spec_ls Spec_savings PyBase M_util M_routedata M_driver M_psavings M_savfam M_savint Spec_savint
  P_base P_util P_cvrp P_psavings P_psavings2 P_savfam P_savfam2 P_savint.

Section Int.
Variables (ceps seps : Z) (N : nat) (D : matrix) (d : demands) (C L : limit) (mk : bool).
Hypothesis HN : (2 <= N)%nat.
Hypothesis Hsym : symmetric D.
Hypothesis Halone : served_alone N D d C L ceps seps.
Notation good := (okr ceps seps N D d C L mk).
Notation points := (ps_points ceps seps N D d C L mk).

Lemma good_only rs : good rs -> Forall customers_only rs.
Proof. apply okr_customers. Qed.

Lemma point_good savings pts j p : valid_pairs N savings -> points savings = Some pts -> nth_error pts j = Some p -> fst p <> Extended ->
  exists rs, interrupted_sol p = Some (encode rs) /\ good rs.
Proof.
  intros HV Ep Hj Hx. destruct (interrupted_ok ceps seps N D d C L mk savings HN Hsym Halone HV) as (pts' & Ep' & H). rewrite Ep in Ep'. injection Ep' as <-.
  destruct (H p (nth_error_In _ _ Hj)) as (H1 & _). destruct (H1 Hx) as (rs & E & A1 & A2 & A3 & A4). exists rs. split; [exact E|].
  split; [|exact A4]. repeat split; assumption.
Qed.

Lemma savings_run_stop savings j pts p s : points savings = Some pts -> nth_error pts j = Some p -> interrupted_sol p = Some s ->
  savings_run ceps seps N D d C L mk savings (Some (In_savings j)) = Some (Some s, true).
Proof. intros Ep Hj Es. unfold savings_run. now rewrite Ep, Hj, Es. Qed.

Lemma savings_run_on savings s : valid_pairs N savings -> (forall j, s <> Some (In_savings j)) ->
  exists o, savings_run ceps seps N D d C L mk savings s = Some (option_map encode o, false) /\ (forall rs, o = Some rs -> good rs).
Proof.
  intros HV Hs. destruct (ps_sol_ok ceps seps N D d C L mk HN Hsym Halone savings HV) as (rs & E & Hrs).
  assert (X : exists o, option_map (fun sol => (Some sol, false)) (ps_sol ceps seps N D d C L mk savings) = Some (option_map encode o, false) /\ (forall q, o = Some q -> good q)).
  { exists (Some rs). rewrite E. split; [reflexivity|]. intros q H. injection H as <-. exact Hrs. }
  assert (Y : exists o, @Some run_end (None, false) = Some (option_map encode o, false) /\ (forall q, o = Some q -> good q)).
  { exists None. split; [reflexivity|]. intros q H. discriminate. }
  destruct s as [[j| | |]|]; try exact X; try exact Y. now destruct (Hs j).
Qed.

Lemma gaskell_valid m f : In f (gaskell_functions N D m) -> valid_pairs N f.
Proof. intros H. assert (X := @savings_list_valid N D). unfold gaskell_functions, gaskell_lambda, gaskell_pi in H. destruct m; cbn [In] in H; intuition (subst; auto). Qed.

Lemma gaskell_interrupted m stops k j f pts p :
  none_caught stops k -> stops k = Some (In_savings j) -> nth_error (gaskell_functions N D m) k = Some f ->
  points f = Some pts -> nth_error pts j = Some p -> fst p <> Extended ->
  exists rs, gaskell_stopped ceps seps N D d C L mk m stops = Some (Interrupted (Some (encode rs))) /\
    serves N D d C L ceps seps rs /\ (mk = false -> routes_cost D rs <= routes_cost D (star_routes N)) /\
    (exists rs', interrupted_sol p = Some (encode rs') /\ not_beaten mk D rs rs') /\
    forall t f', (t < k)%nat -> stops t = None -> nth_error (gaskell_functions N D m) t = Some f' ->
      exists rs', parallel_savings_init ceps seps N D d C L mk f' = Some (Some (encode rs')) /\ serves N D d C L ceps seps rs' /\ not_beaten mk D rs rs'.
Proof.
  intros Hc Hk Hf Ep Hj Hx. destruct (point_good f pts j p (gaskell_valid m f (nth_error_In _ _ Hf)) Ep Hj Hx) as (rsk & Ek & Gk).
  set (run := savings_run ceps seps N D d C L mk).
  assert (HR : forall i q, (i < k)%nat -> nth_error (gaskell_functions N D m) i = Some q -> exists o, run q (stops (0 + i)%nat) = Some (option_map encode o, false) /\ (forall rs, o = Some rs -> good rs)).
  { intros i q Hi Hq. apply savings_run_on; [apply (gaskell_valid m); now apply nth_error_In in Hq|]. intros j'. now apply Hc. }
  destruct (runs_interrupted mk D run stops good (gaskell_functions N D m) k f rsk good_only 0 None []) as (rs & E & G & B1 & _ & B2); try assumption.
  { reflexivity. } { intros ? ? []. }
  { cbn [Nat.add]. rewrite Hk. now apply (savings_run_stop f j pts p). }
  exists rs. split; [unfold gaskell_stopped; fold run; rewrite E; reflexivity|]. destruct G as (G1 & G2). split; [exact G1|]. split; [exact G2|].
  split; [now exists rsk|]. intros t f' Ht Hst Hf'.
  destruct (ps_sol_ok ceps seps N D d C L mk HN Hsym Halone f' (gaskell_valid m f' (nth_error_In _ _ Hf'))) as (r & Er & Gr).
  assert (Hinit : parallel_savings_init ceps seps N D d C L mk f' = Some (Some (encode r))).
  { unfold ps_sol in Er. destruct (parallel_savings_init _ _ _ _ _ _ _ _ _) as [[?|]|]; congruence. }
  exists r. split; [exact Hinit|]. split; [exact (proj1 Gr)|]. apply (B2 t f' r Ht Hf'); [|now apply good_only].
  cbn [Nat.add]. rewrite Hst. unfold run, savings_run. now rewrite Er.
Qed.

(** ** Paessens *)
Hypothesis HD0 : D 0%nat 0%nat = 0.
Hypothesis Hd0 : d 0%nat = 0.
Hypothesis He : 0 <= seps.
Variable do3 : bool.
Notation prun := (fun fuel => paessens_stopped_run seps ceps N D d C L mk do3 fuel).
Notation plist := (fun gf : Z * Z => paessens_list N D (fst gf) (snd gf)).

Lemma params_fuel (ps : list (Z * Z)) : exists fuel0, forall gf, In gf ps -> exists rs, good rs /\
  forall fuel, (fuel0 <= fuel)%nat -> paessens_run seps ceps N D d C L mk do3 fuel gf = Some (encode rs).
Proof.
  induction ps as [|gf ps (f0 & IH)]; [exists 0%nat; intros ? []|].
  destruct (paessens_run_ok ceps seps N D d C L mk HN Hsym Halone HD0 Hd0 He do3 gf) as (rs & f1 & A & G & _).
  exists (Nat.max f0 f1). intros g [<-|Hg].
  - exists rs. split; [exact G|]. intros fuel Hf. apply A. lia.
  - destruct (IH g Hg) as (q & G' & A'). exists q. split; [exact G'|]. intros fuel Hf. apply A'. lia.
Qed.

Lemma prun_on fuel gf rs s : good rs -> paessens_run seps ceps N D d C L mk do3 fuel gf = Some (encode rs) -> (forall j, s <> Some (In_savings j)) ->
  exists o, prun fuel gf s = Some (option_map encode o, false) /\ (forall rs, o = Some rs -> good rs).
Proof.
  intros G E Hs. destruct s as [[j| | |]|]; cbn [paessens_stopped_run].
  - now destruct (Hs j).
  - exists None. split; [reflexivity|]. intros ? H. discriminate.
  - exists None. split; [reflexivity|]. intros ? H. discriminate.
  - destruct (ps_sol_ok ceps seps N D d C L mk HN Hsym Halone (plist gf) (savings_list_valid N D HN _)) as (r & Er & Gr). 
    exists (Some r). rewrite Er. split; [reflexivity|]. intros q H. injection H as <-. exact Gr.
  - exists (Some rs). rewrite E. split; [reflexivity|]. intros q H. injection H as <-. exact G.
Qed.

Lemma prun_stop fuel gf j pts p s : points (plist gf) = Some pts -> nth_error pts j = Some p -> interrupted_sol p = Some s ->
  prun fuel gf (Some (In_savings j)) = Some (Some s, true).
Proof. intros Ep Hj Es. cbn [paessens_stopped_run]. now rewrite Ep, Hj, Es. Qed.

Lemma paessens_runs_interrupted ps fuel : (forall gf, In gf ps -> exists rs, good rs /\ paessens_run seps ceps N D d C L mk do3 fuel gf = Some (encode rs)) ->
  forall stops k j gf pts p t best seen, binv mk D best seen -> (forall q rs, In (q, Some rs) seen -> good rs) ->
  none_caught stops (t + k) -> stops (t + k)%nat = Some (In_savings j) -> nth_error ps k = Some gf ->
  points (plist gf) = Some pts -> nth_error pts j = Some p -> fst p <> Extended ->
  exists rs, stopped_runs D mk (prun fuel) stops t ps best = Some (inr (Some (encode rs))) /\ good rs /\
    (exists rs', interrupted_sol p = Some (encode rs') /\ not_beaten mk D rs rs') /\
    (forall q rs', In (q, Some rs') seen -> not_beaten mk D rs rs') /\
    forall i gf', (i < k)%nat -> stops (t + i)%nat = None -> nth_error ps i = Some gf' ->
      exists rs', paessens_run seps ceps N D d C L mk do3 fuel gf' = Some (encode rs') /\ good rs' /\ not_beaten mk D rs rs'.
Proof.
  intros Hps stops k j gf pts p t best seen HI Hseen Hc Hk Hf Ep Hj Hx.
  destruct (point_good (plist gf) pts j p (savings_list_valid N D HN _) Ep Hj Hx) as (rsk & Ek & Gk).
  destruct (runs_interrupted mk D (prun fuel) stops good ps k gf rsk good_only t best seen) as (rs & E & G & B1 & B0 & B2); try assumption.
  { rewrite Hk. now apply (prun_stop fuel gf j pts p). }
  { intros i q Hi Hq. destruct (Hps q (nth_error_In _ _ Hq)) as (r & Gr & Er). apply (prun_on fuel q r); [exact Gr|exact Er|]. intros j'. apply Hc. lia. }
  exists rs. split; [exact E|]. split; [exact G|]. split; [now exists rsk|]. split; [exact B0|].
  intros i gf' Hi Hst Hg. destruct (Hps gf' (nth_error_In _ _ Hg)) as (r & Gr & Er). exists r. split; [exact Er|]. split; [exact Gr|].
  apply (B2 i gf' r Hi Hg); [|now apply good_only]. rewrite Hst. cbn [paessens_stopped_run]. now rewrite Er.
Qed.

Lemma stopped_same fuel f0 stops ps : (forall gf, In gf ps -> paessens_run seps ceps N D d C L mk do3 fuel gf = paessens_run seps ceps N D d C L mk do3 f0 gf) ->
  forall t best, stopped_runs D mk (prun fuel) stops t ps best = stopped_runs D mk (prun f0) stops t ps best.
Proof.
  induction ps as [|q ps IH]; intros Hi t best; [reflexivity|]. cbn [stopped_runs].
  replace (prun f0 q (stops t)) with (prun fuel q (stops t)).
  - destruct (prun fuel q (stops t)) as [[o b]|]; [|reflexivity]. destruct b; [reflexivity|]. apply IH. intros y Hy. apply Hi. now right.
  - unfold paessens_stopped_run. rewrite (Hi q (or_introl eq_refl)). reflexivity.
Qed.

Lemma paessens_interrupted s stops k j gf pts p :
  none_caught stops k -> stops k = Some (In_savings j) -> nth_error (base_parameters s) k = Some gf ->
  points (plist gf) = Some pts -> nth_error pts j = Some p -> fst p <> Extended ->
  exists rs fuel0, 
    serves N D d C L ceps seps rs /\ (mk = false -> routes_cost D rs <= routes_cost D (star_routes N)) /\
    (exists rs', interrupted_sol p = Some (encode rs') /\ not_beaten mk D rs rs') /\
    forall fuel, (fuel0 <= fuel)%nat ->
      paessens_stopped seps ceps N D d C L mk s do3 fuel stops = Some (Interrupted (Some (encode rs))) /\
      forall t gf', (t < k)%nat -> stops t = None -> nth_error (base_parameters s) t = Some gf' ->
        exists rs', paessens_run seps ceps N D d C L mk do3 fuel gf' = Some (encode rs') /\ serves N D d C L ceps seps rs' /\ not_beaten mk D rs rs'.
Proof.
  intros Hc Hk Hf Ep Hj Hx. destruct (params_fuel (base_parameters s)) as (f0 & HF).
  assert (R : forall fuel, (f0 <= fuel)%nat -> exists rs, 
     stopped_runs D mk (prun fuel) stops 0 (base_parameters s) None = Some (inr (Some (encode rs))) /\ good rs /\
    (exists rs', interrupted_sol p = Some (encode rs') /\ not_beaten mk D rs rs') /\
    forall i gf', (i < k)%nat -> stops i = None -> nth_error (base_parameters s) i = Some gf' ->
      exists rs', paessens_run seps ceps N D d C L mk do3 fuel gf' = Some (encode rs') /\ good rs' /\ not_beaten mk D rs rs').
  { intros fuel Hfu. destruct (paessens_runs_interrupted (base_parameters s) fuel) with (stops := stops) (k := k) (j := j) (gf := gf) (pts := pts) (p := p) (t := 0%nat) (best := @None (Z * Z * option (list nat * Z * nat))) (seen := @nil (Z * Z * option (list (list nat)))) as (rs & E & G & B & _ & B2); try assumption.
    { intros g Hg. destruct (HF g Hg) as (r & G & A). exists r. split; [exact G|]. now apply A. }
    { reflexivity. } { intros ? ? []. }
    now exists rs. }
  assert (Same : forall fuel, (f0 <= fuel)%nat -> stopped_runs D mk (prun fuel) stops 0 (base_parameters s) None = stopped_runs D mk (prun f0) stops 0 (base_parameters s) None).
  { intros fuel Hfu. apply stopped_same. intros q Hq. destruct (HF q Hq) as (r & _ & A). now rewrite (A fuel Hfu), (A f0 (le_n _)). }
  destruct (R f0 (le_n _)) as (rs & E & (G1 & G2) & B & _). exists rs, f0. split; [exact G1|]. split; [exact G2|]. split; [exact B|].
  intros fuel Hfu. destruct (R fuel Hfu) as (rs2 & E2 & G' & _ & B2). rewrite (Same fuel Hfu), E in E2.
  assert (X : rs = rs2) by (apply encode_inj; [now apply (covers_only N), G1|now apply good_only|congruence]). subst rs2.
  split.
  - rewrite <- (Same fuel Hfu) in E. destruct s; cbn [paessens_stopped base_parameters] in *; rewrite E; reflexivity.
  - intros t gf' Ht Hst Hg. destruct (B2 t gf' Ht Hst Hg) as (r & X1 & (X2 & _) & X3). now exists r.
Qed.

Lemma m4_interrupted stops i j :
  none_caught stops (4 + i) -> (i < 4)%nat -> stops (4 + i)%nat = Some (In_savings j) ->
  (forall gf pts, In gf (flat_map m4_finetune m4_parameters) -> points (plist gf) = Some pts -> exists p, nth_error pts j = Some p /\ fst p <> Extended) ->
  exists rs fuel0, 
    serves N D d C L ceps seps rs /\ (mk = false -> routes_cost D rs <= routes_cost D (star_routes N)) /\
    forall fuel, (fuel0 <= fuel)%nat ->
      paessens_stopped seps ceps N D d C L mk M4 do3 fuel stops = Some (Interrupted (Some (encode rs))) /\
      forall t gf', stops t = None -> nth_error m4_parameters t = Some gf' ->
        exists rs', paessens_run seps ceps N D d C L mk do3 fuel gf' = Some (encode rs') /\ serves N D d C L ceps seps rs' /\ not_beaten mk D rs rs'.
Proof.
  intros Hc Hi Hk Hpts. destruct (params_fuel (m4_parameters ++ flat_map m4_finetune m4_parameters)) as (f0 & HF).
  assert (HF1 : forall gf, In gf m4_parameters -> exists rs, good rs /\ forall fuel, (f0 <= fuel)%nat -> paessens_run seps ceps N D d C L mk do3 fuel gf = Some (encode rs)).
  { intros gf Hg. apply HF. apply in_or_app. now left. }
  destruct (runs_prefix mk D (prun f0) stops good m4_parameters good_only [] 0 None []) as (best & new & E & HI & Hfst & Hnew).
  { reflexivity. }
  { intros t gf Ht. destruct (HF1 gf (nth_error_In _ _ Ht)) as (r & Gr & Er). apply (prun_on f0 gf r); [exact Gr|now apply Er|].
    intros j'. apply Hc. assert (t < length m4_parameters)%nat by (apply nth_error_Some; congruence). cbn in *. lia. }
  rewrite app_nil_r in E. change (stopped_runs D mk (prun f0) stops 0 m4_parameters None = Some (inl best)) in E. cbn [app] in HI.
  assert (Hp : exists p b, best = Some (p, b) /\ In p m4_parameters).
  { destruct best as [[p b]|]; [|cbn in HI; subst new; discriminate Hfst]. exists p, b. split; [reflexivity|]. rewrite <- Hfst.
    destruct b as [[[s f] K]|]; [|exact (proj1 HI)]. destruct HI as (rs & _ & _ & _ & Hin & _). apply in_map_iff. now exists (p, Some rs). }
  destruct Hp as (p & b & -> & Hp).
  assert (Hnth : exists gf, nth_error (m4_finetune p) i = Some gf).
  { destruct (nth_error (m4_finetune p) i) eqn:X; [now eexists|]. apply nth_error_None in X. destruct p. cbn in X. lia. }
  destruct Hnth as (gf & Hgf).
  assert (Hfl : forall q, In q (m4_finetune p) -> In q (flat_map m4_finetune m4_parameters)) by (intros q Hq; apply in_flat_map; now exists p).
  assert (HF2 : forall q, In q (m4_finetune p) -> exists rs, good rs /\ forall fuel, (f0 <= fuel)%nat -> paessens_run seps ceps N D d C L mk do3 fuel q = Some (encode rs)).
  { intros q Hq. apply HF. apply in_or_app. right. now apply Hfl. }
  destruct (interrupted_ok ceps seps N D d C L mk (plist gf) HN Hsym Halone (savings_list_valid N D HN _)) as (pts & Ep & _).
  destruct (Hpts gf pts (Hfl gf (nth_error_In _ _ Hgf)) Ep) as (pt & Hj & Hx).
  assert (Gnew : forall q rs, In (q, Some rs) new -> good rs).
  { intros q rs Hin. apply In_nth_error in Hin. destruct Hin as (t & Ht).
    assert (Hq : nth_error m4_parameters t = Some q) by (rewrite <- Hfst, nth_error_map, Ht; reflexivity).
    destruct (Hnew t q Hq) as (o & F1 & _ & F3). rewrite Ht in F1. injection F1 as <-. now apply F3. }
  assert (R : forall fuel, (f0 <= fuel)%nat -> exists rs, stopped_runs D mk (prun fuel) stops 4 (m4_finetune p) (Some (p, b)) = Some (inr (Some (encode rs))) /\ good rs /\
     forall q rs', In (q, Some rs') new -> not_beaten mk D rs rs').
  { intros fuel Hfu. destruct (paessens_runs_interrupted (m4_finetune p) fuel) with (stops := stops) (k := i) (j := j) (gf := gf) (pts := pts) (p := pt) (t := 4%nat) (best := Some (p, b)) (seen := new) as (rs & E' & G & _ & B & _); try assumption.
    { intros g Hg. destruct (HF2 g Hg) as (r & G & A). exists r. split; [exact G|]. now apply A. }
    now exists rs. }
  destruct (R f0 (le_n _)) as (rs & E1 & G & B). destruct G as (G1 & G2). exists rs, f0. split; [exact G1|]. split; [exact G2|].
  intros fuel Hfu. split.
  - unfold paessens_stopped.
    rewrite (stopped_same fuel f0 stops m4_parameters) by (intros q Hq; destruct (HF1 q Hq) as (r & _ & A); now rewrite (A fuel Hfu), (A f0 (le_n _))).
    rewrite E.
    rewrite (stopped_same fuel f0 stops (m4_finetune p)) by (intros q Hq; destruct (HF2 q Hq) as (r & _ & A); now rewrite (A fuel Hfu), (A f0 (le_n _))).
    rewrite E1. reflexivity.
  - intros t gf' Hst Ht. destruct (HF1 gf' (nth_error_In _ _ Ht)) as (r & (Gr & Gr') & Er). exists r. split; [now apply Er|]. split; [exact Gr|].
    destruct (Hnew t gf' Ht) as (o & F1 & F2 & F3). cbn [Nat.add] in F2. rewrite Hst in F2. cbn [paessens_stopped_run] in F2. rewrite (Er f0 (le_n _)) in F2.
    destruct o as [r2|]; [|discriminate]. cbn [option_map] in F2. 
    assert (X : r = r2) by (apply encode_inj; [now apply (covers_only N), Gr|now apply good_only, F3|congruence]). subst r2.
    apply (B gf'). now apply nth_error_In in F1.
Qed.
End Int.
