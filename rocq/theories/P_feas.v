(** * Proofs: parallel savings sees demands and limits only through which routes are feasible *)
From Coq Require Import ZifyBool ZifyNat.
From Verif Require Import Spec Spec_inter Spec_savings Spec_feas PyBase M_util M_psavings P_base P_intra2 P_psavings P_psavings2.

Lemma merge_last C L st i j l r lr rr a b md mc : l <> r ->
  a = (if Nat.eqb (hd 0%nat lr) i then rev lr else lr) -> b = (if Nat.eqb (last rr 0%nat) j then rev rr else rr) ->
  last_state (merge_points C L st i j l r lr rr md mc) st = merged C L st l r a b md mc.
Proof.
  intros Hlr Ea Eb. unfold merge_points, last_state. rewrite <- Ea, <- Eb. cbn [map last snd]. unfold merged.
  f_equal. rewrite (set_comm l r) by congruence. now rewrite !set_set.
Qed.

Lemma within_exceeds lim eps x : within lim eps x -> exceeds lim eps x = false.
Proof. intros H. destruct (exceeds lim eps x) eqn:E; [|reflexivity]. now apply exceeds_not_within in E as [_ E]. Qed.

Lemma step_test N D d C L ceps seps st i j l r lr rr a b md mc : mergeable N D d C L st i j l r lr rr a b md mc ->
  exceeds C ceps md || exceeds L seps mc = false <-> feasible D d C L ceps seps (a ++ b).
Proof.
  intros M. pose proof (m_dem _ _ _ _ _ _ _ _ _ _ _ _ _ _ _ _ M) as Md. pose proof (m_cost _ _ _ _ _ _ _ _ _ _ _ _ _ _ _ _ M) as Mc.
  assert (EC : exceeds C ceps md = exceeds C ceps (demand d (a ++ b))).
  { destruct (is_set C) eqn:E; [now rewrite Md|]. unfold exceeds. unfold is_set in E. now destruct (truthy C). }
  assert (EL : exceeds L seps mc = exceeds L seps (route_cost D (a ++ b))).
  { destruct (is_set L) eqn:E; [now rewrite Mc|]. unfold exceeds. unfold is_set in E. now destruct (truthy L). }
  rewrite EC, EL, orb_false_iff. split.
  - intros [H1 H2]. split; now apply exceeds_within.
  - intros [H1 H2]. split; now apply within_exceeds.
Qed.

Section Feas.
Variables (N : nat) (D : matrix) (d d' : demands) (C C' L L' : limit) (ceps ceps' seps seps' : Z) (mk : bool).
Hypothesis HN : (2 <= N)%nat.
Hypothesis Hsym : symmetric D.
Hypothesis Hsame : forall r, possible_route N r -> (feasible D d C L ceps seps r <-> feasible D d' C' L' ceps' seps' r).

Definition alike (st st' : pstate) : Prop :=
  pinv N D d C L st /\ pinv N D d' C' L' st' /\ ps_routes st = ps_routes st' /\ ps_end st = ps_end st'.

Lemma merged_possible st i j l r lr rr a b md mc : pinv N D d C L st -> mergeable N D d C L st i j l r lr rr a b md mc -> possible_route N (a ++ b).
Proof.
  intros HI M. destruct (merged_live _ _ _ _ _ _ _ _ _ _ _ _ _ _ _ _ M) as (rest & _ & P2 & _).
  pose proof (merged_inv N D d C L mk _ _ _ _ _ _ _ _ _ _ _ HI M) as HI'.
  pose proof (pi_cov _ _ _ _ _ _ HI') as Hc. pose proof (pinv_nodup _ _ _ _ _ _ HI') as Hn.
  apply concat_perm in P2. cbn [concat] in P2. split; [|split].
  - pose proof (m_ane _ _ _ _ _ _ _ _ _ _ _ _ _ _ _ _ M) as Na. destruct a; [easy|discriminate].
  - apply (Permutation_NoDup P2), (Permutation_NoDup (Permutation_app_comm _ _)) in Hn. now apply P_intra2.NoDup_app_r in Hn.
  - apply Forall_forall. intros x Hx. assert (In x (seq 1 (N - 1))) as H.
    { apply (Permutation_in _ Hc), (Permutation_in _ (Permutation_sym P2)), in_or_app. now left. }
    apply in_seq in H. lia.
Qed.

Lemma step_alike sv st st' : (1 <= snd (fst sv) < N)%nat -> (1 <= snd sv < N)%nat -> alike st st' ->
  exists pts pts' brk, ps_step ceps seps D C L mk sv st = Some (pts, brk) /\ ps_step ceps' seps' D C' L' mk sv st' = Some (pts', brk) /\
    alike (last_state pts st) (last_state pts' st').
Proof.
  intros Hi Hj HA. pose proof HA as (HI & HI' & ER & EE). destruct sv as (((s & x) & i) & j). cbn [fst snd] in Hi, Hj. unfold ps_step.
  assert (SKIP : forall brk : bool, exists pts pts' brk', Some (@nil (ppoint * pstate), brk) = Some (pts, brk') /\ Some (@nil (ppoint * pstate), brk) = Some (pts', brk') /\
    alike (last_state pts st) (last_state pts' st')) by (intros brk; exists [], [], brk; split; [reflexivity|]; split; [reflexivity|]; exact HA).
  destruct (negb mk && _); [apply SKIP|]. rewrite <- EE.
  assert (Li : (i < length (ps_end st))%nat) by (rewrite (pi_elen _ _ _ _ _ _ HI); lia).
  assert (Lj : (j < length (ps_end st))%nat) by (rewrite (pi_elen _ _ _ _ _ _ HI); lia).
  destruct (nth_error (ps_end st) i) as [[l|]|] eqn:Ei; [| |now apply nth_error_None in Ei; lia];
    (destruct (nth_error (ps_end st) j) as [[r|]|] eqn:Ej; [| |now apply nth_error_None in Ej; lia]); try apply SKIP.
  destruct (Nat.eqb_spec l r) as [_|Hlr]; [apply SKIP|]. cbv zeta.
  destruct (mergeable_intro N D d C L Hsym st i j l r HI Hi Hj Ei Ej Hlr) as (lr & rr & El & Er & M).
  assert (Ei' : nth_error (ps_end st') i = Some (Some l)) by now rewrite <- EE.
  assert (Ej' : nth_error (ps_end st') j = Some (Some r)) by now rewrite <- EE.
  destruct (mergeable_intro N D d' C' L' Hsym st' i j l r HI' Hi Hj Ei' Ej' Hlr) as (lr' & rr' & El' & Er' & M').
  assert (lr' = lr) by (rewrite ER in El; congruence). assert (rr' = rr) by (rewrite ER in Er; congruence). subst lr' rr'.
  pose proof (step_test _ _ _ _ _ ceps seps _ _ _ _ _ _ _ _ _ _ _ M) as T. pose proof (step_test _ _ _ _ _ ceps' seps' _ _ _ _ _ _ _ _ _ _ _ M') as T'.
  pose proof (Hsame _ (merged_possible _ _ _ _ _ _ _ _ _ _ _ HI M)) as HS.
  set (md := nth l (ps_dem st) 0 + nth r (ps_dem st) 0) in *. set (md' := nth l (ps_dem st') 0 + nth r (ps_dem st') 0) in *.
  set (mc := nth l (ps_cost st) 0 - D 0%nat i + nth r (ps_cost st) 0 - D 0%nat j + D i j) in *.
  set (mc' := nth l (ps_cost st') 0 - D 0%nat i + nth r (ps_cost st') 0 - D 0%nat j + D i j) in *.
  assert (R : forall {A} (b1 b2 : bool) (u v : A), (if b1 then u else if b2 then u else v) = if b1 || b2 then u else v) by now intros A [|] [|].
  rewrite !R. rewrite El, Er, El', Er'.
  destruct (exceeds C ceps md || exceeds L seps mc) eqn:E1; destruct (exceeds C' ceps' md' || exceeds L' seps' mc') eqn:E2.
  - apply SKIP.
  - exfalso. enough (true = false) by discriminate. apply T, HS, T'. reflexivity.
  - exfalso. enough (true = false) by discriminate. apply T', HS, T. reflexivity.
  - do 3 eexists. split; [reflexivity|]. split; [reflexivity|].
    rewrite !(merge_last _ _ _ _ _ _ _ _ _ _ _ _ _ Hlr eq_refl eq_refl). split; [|split; [|split]].
    + exact (merged_inv N D d C L mk _ _ _ _ _ _ _ _ _ _ _ HI M).
    + exact (merged_inv N D d' C' L' mk _ _ _ _ _ _ _ _ _ _ _ HI' M').
    + cbn [merged ps_routes]. now rewrite ER.
    + cbn [merged ps_end]. now rewrite EE.
Qed.

Lemma loop_alike savings : valid_pairs N savings -> forall st st', alike st st' ->
  exists pts pts', ps_loop ceps seps D C L mk savings st = Some pts /\ ps_loop ceps' seps' D C' L' mk savings st' = Some pts' /\
    alike (last_state pts st) (last_state pts' st').
Proof.
  induction savings as [|sv t IH]; intros HV st st' HA; [exists [], []; split; [reflexivity|]; split; [reflexivity|]; exact HA|].
  assert (HVt : valid_pairs N t) by (intros s x i j H; apply (HV s x i j); now right).
  assert (Hij : (1 <= snd (fst sv) < N)%nat /\ (1 <= snd sv < N)%nat).
  { destruct sv as (((s & x) & i) & j). apply (HV s x i j). now left. }
  destruct (step_alike sv st st' (proj1 Hij) (proj2 Hij) HA) as (p & p' & brk & E1 & E2 & HA'). cbn [ps_loop]. rewrite E1, E2.
  destruct brk; [exists p, p'; auto|]. destruct (IH HVt _ _ HA') as (q & q' & F1 & F2 & HA''). rewrite F1, F2.
  exists (p ++ q), (p' ++ q'). split; [reflexivity|]. split; [reflexivity|]. now rewrite !last_state_app.
Qed.

Lemma parallel_alike savings : valid_pairs N savings ->
  parallel_savings_init ceps seps N D d C L mk savings = parallel_savings_init ceps' seps' N D d' C' L' mk savings.
Proof.
  intros HV. unfold parallel_savings_init, ps_points.
  destruct (loop_alike savings HV (ps_init N D d C L) (ps_init N D d' C' L')) as (p & p' & E1 & E2 & HA).
  { split; [apply pinv_init; lia|]. split; [apply pinv_init; lia|]. split; reflexivity. }
  rewrite E1, E2.
  assert (X : forall (q : ppoint * pstate) l st, snd q = st -> last_state (q :: l) st = last_state l st).
  { intros q l st <-. unfold last_state. cbn [map]. now destruct l. }
  rewrite !X by reflexivity. destruct HA as (_ & _ & ER & _). now rewrite ER.
Qed.
End Feas.

Lemma demand_subset d : (forall n, 0 <= d n) -> forall r l, NoDup r -> incl r l -> demand d r <= demand d l.
Proof.
  intros Hd. induction r as [|x r IH]; intros l Hn Hi; [now apply demand_nonneg|].
  inversion Hn as [|? ? Hx Hn']; subst. destruct (in_split x l) as (l1 & l2 & ->); [apply Hi; now left|].
  assert (H : demand d r <= demand d (l1 ++ l2)).
  { apply IH; [assumption|]. intros y Hy. assert (In y (l1 ++ x :: l2)) as H by (apply Hi; now right).
    rewrite in_app_iff in *. destruct H as [H|[<-|H]]; [now left|contradiction|now right]. }
  rewrite !demand_app in *. change (demand d (x :: r)) with (d x + demand d r). change (demand d (x :: l2)) with (d x + demand d l2). lia.
Qed.

Lemma parallel_spare ceps seps N D d C L mk savings : (2 <= N)%nat -> symmetric D -> valid_pairs N savings ->
  (forall n, 0 <= d n) -> 0 <= ceps -> demand d (seq 1 (N - 1)) <= C ->
  parallel_savings_init ceps seps N D d (Some C) L mk savings = parallel_savings_init ceps seps N D d None L mk savings.
Proof.
  intros HN Hs HV Hd Hc HC. apply parallel_alike; try assumption. intros r (_ & Hn & Hr). unfold feasible.
  assert (H : demand d r <= demand d (seq 1 (N - 1))).
  { apply demand_subset; try assumption. intros x Hx. rewrite Forall_forall in Hr. specialize (Hr x Hx). apply in_seq. lia. }
  unfold within. split; intros [H1 H2]; (split; [|exact H2]); [exact I|]. intros _. lia.
Qed.
