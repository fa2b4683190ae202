(** * Proofs for changes of the unit of measurement *)
From Coq Require Import ZifyBool.
From Verif Require Import Spec Spec_units PyBase M_util M_psavings.

Section Units.
Variables k m : Z.
Hypothesis Hk : 0 < k.
Hypothesis Hm : 0 < m.

Lemma truthy_finer c C : 0 < c -> truthy (finer_limit c C) = option_map (Z.mul c) (truthy C).
Proof. intros Hc. destruct C as [v|]; [|reflexivity]. cbn. destruct (v =? 0) eqn:E; destruct (c * v =? 0) eqn:E'; try reflexivity; exfalso; nia. Qed.
Lemma is_set_finer c C : 0 < c -> is_set (finer_limit c C) = is_set C.
Proof. intros Hc. unfold is_set. rewrite truthy_finer by assumption. now destruct (truthy C). Qed.
Lemma exceeds_finer c C eps v : 0 < c -> exceeds (finer_limit c C) (c * eps) (c * v) = exceeds C eps v.
Proof.
  intros Hc. unfold exceeds. rewrite truthy_finer by assumption. destruct (truthy C) as [w|]; [|reflexivity]. cbn [option_map].
  destruct (w <? v - eps) eqn:E; destruct (c * w <? c * v - c * eps) eqn:E'; try reflexivity; exfalso; nia.
Qed.
Lemma exceeds_whole c C eps v : 0 <= eps < c -> exceeds (finer_limit c C) eps (c * v) = exceeds C 0 v.
Proof.
  intros Hc. unfold exceeds. rewrite truthy_finer by lia. destruct (truthy C) as [w|]; [|reflexivity]. cbn [option_map].
  destruct (w <? v - 0) eqn:E; destruct (c * w <? c * v - eps) eqn:E'; try reflexivity; exfalso; nia.
Qed.

Definition sv_finer (sv : saving) : saving := let '(s, x, i, j) := sv in (k * s, k * x, i, j).
Lemma saving_leb_finer a b : saving_leb (sv_finer a) (sv_finer b) = saving_leb a b.
Proof.
  destruct a as (((s & x) & i) & j), b as (((s' & x') & i') & j'). cbn.
  assert (H : forall u v, (k * u =? k * v) = (u =? v)) by (intros; destruct (u =? v) eqn:?; nia).
  assert (H' : forall u v, (k * u <? k * v) = (u <? v)) by (intros; destruct (u <? v) eqn:?; nia).
  now rewrite !H, !H'.
Qed.
Lemma sort_insert_finer x l : sort_insert (sv_finer x) (map sv_finer l) = map sv_finer (sort_insert x l).
Proof. induction l as [|y t IH]; [reflexivity|]. cbn. rewrite saving_leb_finer. destruct (saving_leb y x); [reflexivity|]. cbn. now rewrite IH. Qed.
Lemma sort_reverse_finer l : sort_reverse (map sv_finer l) = map sv_finer (sort_reverse l).
Proof. induction l as [|y t IH]; [reflexivity|]. cbn. now rewrite IH, sort_insert_finer. Qed.
Lemma clarke_wright_finer N D : clarke_wright_savings N (finer_matrix k D) = map sv_finer (clarke_wright_savings N D).
Proof.
  unfold clarke_wright_savings. rewrite <- sort_reverse_finer. f_equal. induction (range 1 N) as [|i l IH]; [reflexivity|].
  cbn. rewrite map_app, IH. f_equal. rewrite map_map. apply map_ext. intros j. unfold finer_matrix, sv_finer.
  f_equal. f_equal. f_equal; lia.
Qed.

Definition st_finer (st : pstate) : pstate :=
  mkps (ps_routes st) (map (Z.mul m) (ps_dem st)) (map (Z.mul k) (ps_cost st)) (ps_end st).
Definition pt_finer (p : ppoint * pstate) := (fst p, st_finer (snd p)).

Lemma nth_mul c i l : nth i (map (Z.mul c) l) 0 = c * nth i l 0.
Proof. rewrite <- (map_nth (Z.mul c)). now rewrite Z.mul_0_r. Qed.
Lemma map_set_nth_mul c : forall l i v, map (Z.mul c) (set_nth i v l) = set_nth i (c * v) (map (Z.mul c) l).
Proof. induction l as [|a l IH]; intros [|i] v; cbn; try reflexivity. now rewrite IH. Qed.

Lemma ps_init_finer N D d C L :
  ps_init N (finer_matrix k D) (finer_demands m d) (finer_limit m C) (finer_limit k L) = st_finer (ps_init N D d C L).
Proof.
  unfold ps_init, st_finer. cbn [ps_routes ps_dem ps_cost ps_end]. rewrite !is_set_finer by assumption. f_equal.
  - destruct (is_set C); [now rewrite map_map|]. generalize N. intros n. induction n as [|n IH]; [reflexivity|]. cbn. rewrite <- IH. f_equal. lia.
  - destruct (is_set L); [|reflexivity]. rewrite map_map. apply map_ext. intros i. unfold finer_matrix. lia.
Qed.

Lemma merge_points_finer C L st i j l r lr rr md mc :
  merge_points (finer_limit m C) (finer_limit k L) (st_finer st) i j l r lr rr (m * md) (k * mc)
  = map pt_finer (merge_points C L st i j l r lr rr md mc).
Proof.
  unfold merge_points. rewrite !is_set_finer by assumption. cbn [st_finer ps_routes ps_dem ps_cost ps_end map].
  unfold pt_finer, st_finer. cbn [fst snd ps_routes ps_dem ps_cost ps_end].
  destruct (is_set C), (is_set L); rewrite ?map_set_nth_mul; reflexivity.
Qed.

Lemma last_state_finer pts st : last_state (map pt_finer pts) (st_finer st) = st_finer (last_state pts st).
Proof.
  unfold last_state. rewrite map_map. induction pts as [|p [|q t] IH]; [reflexivity|reflexivity|]. exact IH.
Qed.

Variables ceps seps ceps' seps' : Z.
Variables C L : limit.
Hypothesis HC : forall v, exceeds (finer_limit m C) ceps' (m * v) = exceeds C ceps v.
Hypothesis HL : forall v, exceeds (finer_limit k L) seps' (k * v) = exceeds L seps v.

Lemma ps_step_finer D mk sv st :
  ps_step ceps' seps' (finer_matrix k D) (finer_limit m C) (finer_limit k L) mk (sv_finer sv) (st_finer st)
  = option_map (fun r => (map pt_finer (fst r), snd r)) (ps_step ceps seps D C L mk sv st).
Proof.
  destruct sv as (((s & x) & i) & j). unfold ps_step, sv_finer.
  assert (E : (finer_matrix k D i 0%nat + finer_matrix k D 0%nat j - finer_matrix k D i j <? 0) = (D i 0%nat + D 0%nat j - D i j <? 0)).
  { unfold finer_matrix. destruct (D i 0%nat + D 0%nat j - D i j <? 0) eqn:?; nia. }
  rewrite E. destruct (negb mk && _); [reflexivity|]. cbn [st_finer ps_end ps_dem ps_cost ps_routes].
  destruct (nth_error (ps_end st) i) as [[l|]|]; destruct (nth_error (ps_end st) j) as [[r|]|]; try reflexivity.
  destruct (Nat.eqb l r); [reflexivity|]. cbv zeta. rewrite !nth_mul, <- Z.mul_add_distr_l, HC.
  destruct (exceeds C ceps _); [reflexivity|].
  set (mc := nth l (ps_cost st) 0 - D 0%nat i + nth r (ps_cost st) 0 - D 0%nat j + D i j).
  replace (k * nth l (ps_cost st) 0 - finer_matrix k D 0%nat i + k * nth r (ps_cost st) 0 - finer_matrix k D 0%nat j + finer_matrix k D i j) with (k * mc)
    by (unfold mc, finer_matrix; lia).
  rewrite HL. destruct (exceeds L seps mc); [reflexivity|].
  destruct (nth l (ps_routes st) None) as [lr|]; [|reflexivity]. destruct (nth r (ps_routes st) None) as [rr|]; [|reflexivity].
  cbn [option_map fst snd]. rewrite <- merge_points_finer. reflexivity.
Qed.

Lemma ps_loop_finer D mk : forall l st,
  ps_loop ceps' seps' (finer_matrix k D) (finer_limit m C) (finer_limit k L) mk (map sv_finer l) (st_finer st)
  = option_map (map pt_finer) (ps_loop ceps seps D C L mk l st).
Proof.
  induction l as [|sv t IH]; intros st; [reflexivity|]. cbn [map ps_loop]. rewrite ps_step_finer.
  destruct (ps_step ceps seps D C L mk sv st) as [[pts [|]]|]; cbn [option_map fst snd]; [reflexivity| |reflexivity].
  rewrite last_state_finer, IH. destruct (ps_loop ceps seps D C L mk t (last_state pts st)); cbn [option_map]; [|reflexivity].
  now rewrite map_app.
Qed.

Lemma parallel_finer N D d mk :
  parallel_savings_init ceps' seps' N (finer_matrix k D) (finer_demands m d) (finer_limit m C) (finer_limit k L) mk
    (clarke_wright_savings N (finer_matrix k D))
  = parallel_savings_init ceps seps N D d C L mk (clarke_wright_savings N D).
Proof.
  unfold parallel_savings_init, ps_points. rewrite clarke_wright_finer, ps_init_finer, ps_loop_finer.
  destruct (ps_loop ceps seps D C L mk (clarke_wright_savings N D) (ps_init N D d C L)) as [pts|]; [|reflexivity]. cbn [option_map].
  change ((At_start, st_finer (ps_init N D d C L)) :: map pt_finer pts) with (map pt_finer ((At_start, ps_init N D d C L) :: pts)).
  now rewrite last_state_finer.
Qed.
End Units.

Lemma parallel_units k m ceps seps N D d C L mk : 0 < k -> 0 < m ->
  parallel_savings_init (m * ceps) (k * seps) N (finer_matrix k D) (finer_demands m d) (finer_limit m C) (finer_limit k L) mk
    (clarke_wright_savings N (finer_matrix k D))
  = parallel_savings_init ceps seps N D d C L mk (clarke_wright_savings N D).
Proof. intros Hk Hm. apply parallel_finer; try assumption; intros v; now apply exceeds_finer. Qed.
Lemma parallel_whole k m ceps seps N D d C L mk : 0 <= seps < k -> 0 <= ceps < m ->
  parallel_savings_init ceps seps N (finer_matrix k D) (finer_demands m d) (finer_limit m C) (finer_limit k L) mk
    (clarke_wright_savings N (finer_matrix k D))
  = parallel_savings_init 0 0 N D d C L mk (clarke_wright_savings N D).
Proof. intros Hk Hm. apply parallel_finer; try lia; intros v; now apply exceeds_whole. Qed.
