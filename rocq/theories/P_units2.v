(** * Proofs for changes of the unit of measurement: sequential savings *)
From Coq Require Import ZifyBool.
From Verif Require Import Spec Spec_units PyBase M_util M_psavings M_ssavings P_units.

Section Units2.
Variables k m : Z.
Hypothesis Hk : 0 < k.
Hypothesis Hm : 0 < m.
Notation F := (sv_finer k).
Notation Dk D := (finer_matrix k D).

Lemma clarke_wright_seq_finer D u i : clarke_wright_seq (Dk D) u i = map F (clarke_wright_seq D u i).
Proof.
  unfold clarke_wright_seq. rewrite <- (sort_reverse_finer k Hk). f_equal. rewrite map_map. apply map_ext. intros j.
  unfold finer_matrix, sv_finer. f_equal. f_equal. f_equal; lia.
Qed.
Lemma seed_sort_finer D l : seed_sort (Dk D) l = seed_sort D l.
Proof.
  assert (H : forall a b, seed_leb (Dk D) a b = seed_leb D a b).
  { intros a b. unfold seed_leb, finer_matrix. destruct (D 0%nat a =? D 0%nat b) eqn:?; destruct (k * D 0%nat a =? k * D 0%nat b) eqn:?; try nia;
    try reflexivity. }
  assert (H2 : forall x t, seed_insert (Dk D) x t = seed_insert D x t).
  { intros x t. induction t as [|y t IH]; [reflexivity|]. cbn. now rewrite H, IH. }
  unfold seed_sort. induction l as [|x l IH]; [reflexivity|]. cbn. now rewrite IH, H2.
Qed.
Lemma seed_order_finer N D mode : seed_order N (Dk D) mode = seed_order N D mode.
Proof.
  destruct mode; cbn; rewrite ?seed_sort_finer; try reflexivity.
  replace (flat_map (clarke_wright_seq (Dk D) (range 1 N)) (range 1 N)) with (map F (flat_map (clarke_wright_seq D (range 1 N)) (range 1 N))).
  - rewrite (sort_reverse_finer k Hk). destruct (sort_reverse _) as [|a t]; [reflexivity|]. cbn [map]. f_equal.
    f_equal; [destruct a as (((s & x) & i) & j); reflexivity|]. rewrite map_map. apply map_ext. intros (((s & x) & i) & j). reflexivity.
  - generalize (range 1 N) at 1 3. intros l. induction (range 1 N) as [|i t IH] in |- *; [reflexivity|]. cbn. rewrite map_app, IH, clarke_wright_seq_finer. reflexivity.
Qed.

Variables ceps seps ceps' seps' : Z.
Variables C L : limit.
Hypothesis HC : forall v, exceeds (finer_limit m C) ceps' (m * v) = exceeds C ceps v.
Hypothesis HL : forall v, exceeds (finer_limit k L) seps' (k * v) = exceeds L seps v.
Variables (D : matrix) (d : demands) (mk : bool) (cb cb' : list nat -> nat -> list saving).
Hypothesis Hcb : forall u j, cb' u j = map F (cb u j).

Lemma merge_loop_finer sol : forall n l em rd rl unr,
  merge_loop ceps' seps' (Dk D) (finer_demands m d) (finer_limit m C) (finer_limit k L) mk cb' sol n (map F l) em (m * rd) (k * rl) unr
  = merge_loop ceps seps D d C L mk cb sol n l em rd rl unr.
Proof.
  induction n as [|n IHn]; induction l as [|sv t IH]; intros em rd rl unr; try reflexivity;
    destruct sv as (((s & x) & i) & j); cbn [map sv_finer merge_loop];
    assert (E : (Dk D i 0%nat + Dk D 0%nat j - Dk D i j <? 0) = (D i 0%nat + D 0%nat j - D i j <? 0))
      by (unfold finer_matrix; destruct (D i 0%nat + D 0%nat j - D i j <? 0) eqn:?; nia);
    rewrite E; clear E; (destruct (negb mk && _); [reflexivity|]); (destruct (negb (mem j unr)); [apply IH|]);
    unfold finer_demands at 1; rewrite <- Z.mul_add_distr_l, HC; (destruct (exceeds C ceps _); [apply IH|]); cbv zeta;
    (destruct (negb _); [apply IH|]);
    replace (k * rl + (Dk D 0%nat j + Dk D i j - Dk D 0%nat i)) with (k * (rl + (D 0%nat j + D i j - D 0%nat i))) by (unfold finer_matrix; lia);
    rewrite HL; (destruct (exceeds L seps _); [apply IH|]); [reflexivity|].
  rewrite Hcb, <- map_app, (sort_reverse_finer k Hk), !is_set_finer by assumption.
  replace (if is_set C then m * rd + finer_demands m d j else m * rd) with (m * (if is_set C then rd + d j else rd)) by (unfold finer_demands; destruct (is_set C); lia).
  replace (if is_set L then k * (rl + (D 0%nat j + D i j - D 0%nat i)) else k * rl) with (k * (if is_set L then rl + (D 0%nat j + D i j - D 0%nat i) else rl)) by (destruct (is_set L); lia).
  rewrite IHn. reflexivity.
Qed.

Lemma route_loop_finer : forall n seeds sol unr,
  route_loop ceps' seps' (Dk D) (finer_demands m d) (finer_limit m C) (finer_limit k L) mk cb' n seeds sol unr
  = route_loop ceps seps D d C L mk cb n seeds sol unr.
Proof.
  induction n as [|n IH]; intros seeds sol unr; [reflexivity|]. cbn [route_loop]. destruct unr as [|u unr]; [reflexivity|].
  destruct (next_seed (u :: unr) seeds) as [[seed seeds']|]; [|reflexivity]. cbv zeta.
  rewrite Hcb, !is_set_finer by assumption.
  replace (if is_set C then finer_demands m d seed else 0) with (m * (if is_set C then d seed else 0)) by (unfold finer_demands; destruct (is_set C); lia).
  replace (if is_set L then Dk D 0%nat seed + Dk D seed 0%nat else 0) with (k * (if is_set L then D 0%nat seed + D seed 0%nat else 0)) by (unfold finer_matrix; destruct (is_set L); lia).
  rewrite merge_loop_finer. destruct (merge_loop ceps seps D d C L mk cb sol _ _ _ _ _ _) as [[[em u2] pts]|]; [|reflexivity].
  now rewrite IH.
Qed.
End Units2.

Lemma sequential_finer k m ceps seps ceps' seps' N D d C L mk seeds : 0 < k -> 0 < m ->
  (forall v, exceeds (finer_limit m C) ceps' (m * v) = exceeds C ceps v) ->
  (forall v, exceeds (finer_limit k L) seps' (k * v) = exceeds L seps v) ->
  sequential_savings_init ceps' seps' N (finer_matrix k D) (finer_demands m d) (finer_limit m C) (finer_limit k L) mk
    (clarke_wright_seq (finer_matrix k D)) seeds
  = sequential_savings_init ceps seps N D d C L mk (clarke_wright_seq D) seeds.
Proof.
  intros Hk Hm HC HL. unfold sequential_savings_init, ss_run.
  rewrite (route_loop_finer k m Hk Hm ceps seps ceps' seps' C L HC HL D d mk (clarke_wright_seq D)); [reflexivity|].
  intros u j. now apply clarke_wright_seq_finer.
Qed.
Lemma sequential_units k m ceps seps N D d C L mk mode : 0 < k -> 0 < m ->
  seed_order N (finer_matrix k D) mode = seed_order N D mode /\
  forall seeds,
  sequential_savings_init (m * ceps) (k * seps) N (finer_matrix k D) (finer_demands m d) (finer_limit m C) (finer_limit k L) mk
    (clarke_wright_seq (finer_matrix k D)) seeds
  = sequential_savings_init ceps seps N D d C L mk (clarke_wright_seq D) seeds.
Proof.
  intros Hk Hm. split; [now apply seed_order_finer|]. intros seeds. apply sequential_finer; try assumption; intros v; now apply exceeds_finer.
Qed.
Lemma sequential_whole k m ceps seps N D d C L mk mode : 0 <= seps < k -> 0 <= ceps < m ->
  seed_order N (finer_matrix k D) mode = seed_order N D mode /\
  forall seeds,
  sequential_savings_init ceps seps N (finer_matrix k D) (finer_demands m d) (finer_limit m C) (finer_limit k L) mk
    (clarke_wright_seq (finer_matrix k D)) seeds
  = sequential_savings_init 0 0 N D d C L mk (clarke_wright_seq D) seeds.
Proof.
  intros Hk Hm. split; [apply seed_order_finer; lia|]. intros seeds. apply sequential_finer; try lia; intros v; now apply exceeds_whole.
Qed.
