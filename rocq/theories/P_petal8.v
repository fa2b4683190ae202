(** * Proofs about the petal algorithm: every swept petal is made *)
From Verif Require Import Spec Spec_rfcs Spec_inter Spec_savings Spec_petal PyBase P_base M_util M_psavings M_ssavings P_ssavings P_sweep P_sweep2 P_sweep3 P_petal M_routedata M_petal P_petal2 M_sweep.
From Coq Require Import ZifyBool ZifyNat Lia Arith List Permutation.
Import ListNotations.
Local Open Scope Z_scope.

Lemma firstn_S_nth {A} (l : list A) k x : (k < length l)%nat -> firstn (S k) l = firstn k l ++ [nth k l x].
Proof. revert k. induction l as [|a l IH]; intros k H; [cbn in H; lia|]. destruct k; [reflexivity|]. cbn. f_equal. apply IH. cbn in H. lia. Qed.

Lemma next_now order m st p routed : routed (node_at order (sw_step true (length order - 1) p)) = false ->
  next_unrouted order true m st p routed = (sw_step true (length order - 1) p, Some (node_at order (sw_step true (length order - 1) p))).
Proof. intros H. destruct m; cbn [next_unrouted]; rewrite H; reflexivity. Qed.

Section Arc.
Variable order : list nat.
Hypothesis Hnd : NoDup order.
Variable s : nat.
Hypothesis Hs : (s < length order)%nat.
Notation len := (length order).
Notation rot := (skipn s order ++ firstn s order).

Lemma rot_perm : Permutation rot order.
Proof using All. rewrite <- (firstn_skipn s order) at 3. apply Permutation_app_comm. Qed.
Lemma rot_len : length rot = len.
Proof using All. apply Permutation_length, rot_perm. Qed.
Lemma rot_nth k : (k < len)%nat -> nth k rot 0%nat = node_at order ((s + k) mod len).
Proof using All.
  intros Hk. unfold node_at. pose proof (skipn_length s order) as HL. destruct (Nat.lt_ge_cases (s + k) len) as [H|H].
  - rewrite Nat.mod_small by exact H. rewrite app_nth1 by lia. clear - H. revert order H. induction s as [|m IH]; intros o H; [reflexivity|]. destruct o; [cbn in H; lia|]. cbn. apply IH. cbn in H. lia.
  - assert ((s + k) mod len = (s + k - len))%nat as ->. { replace (s + k)%nat with ((s + k - len) + 1 * len)%nat at 1 by lia. rewrite Nat.mod_add by lia. apply Nat.mod_small. lia. }
    rewrite app_nth2 by lia. rewrite HL. transitivity (nth (s + k - len) (firstn s order ++ skipn s order) 0%nat); [|now rewrite firstn_skipn]. rewrite app_nth1; [f_equal; lia|]. rewrite firstn_length. lia.
Qed.
Lemma arc_S k : (k < len)%nat -> arc order s (S k) = arc order s k ++ [node_at order ((s + k) mod len)].
Proof using All. intros H. unfold arc. rewrite (firstn_S_nth rot k 0%nat) by (rewrite rot_len; exact H). rewrite rot_nth by exact H. reflexivity. Qed.
Lemma arc_new k : (k < len)%nat -> ~ In (node_at order ((s + k) mod len)) (arc order s k).
Proof using All.
  intros H. assert (NoDup (arc order s (S k))). { apply (NoDup_app_remove_r _ (skipn (S k) rot)). unfold arc. rewrite firstn_skipn. apply (Permutation_NoDup (Permutation_sym rot_perm)), Hnd. }
  rewrite arc_S in H0 by exact H. apply NoDup_remove_2 in H0. now rewrite app_nil_r in H0.
Qed.
Lemma arc_in k x : In x (arc order s k) -> In x order.
Proof using All. intros H. apply (Permutation_in _ rot_perm). rewrite <- (firstn_skipn k rot). apply in_or_app. now left. Qed.
End Arc.

Section Complete.
Variable eps : Z.
Variable D : matrix.
Variable d : demands.
Variables C L : limit.
Variable f : routing.
Variable order : list nat.
Hypothesis Hnd : NoDup order.
Variables s K : nat.
Hypothesis Hsw : swept D d C L eps f order s K.
Notation len := (length order).
Notation iter := (sw_iter eps eps D d C L f order true true).
Notation loop := (sw_loop eps eps D d C L f order true true).
Notation arc := (arc order s).
Notation made := (fun k rds => exists rd, In rd rds /\ sr_set rd = arc k /\ sr_route rd = fst (f (0%nat :: arc k)) /\ sr_cost rd = snd (f (0%nat :: arc k)) /\ (is_set C = true -> sr_demand rd = demand d (arc k))).

Definition At (k : nat) (st : swstate) : Prop :=
  sr_set (sw_current st) = arc k /\ (is_set C = true -> sr_demand (sw_current st) = demand d (arc k)) /\
  ((k < len)%nat -> sw_pos st = ((s + k) mod len)%nat /\ sw_node st = Some (node_at order ((s + k) mod len)) /\ sw_complete st = false /\
    forall x, In x order -> sw_routed st x = mem x (arc k)).

Lemma iter_incl fuel st : match iter fuel st with Some (inl rs) => incl (sw_routes st) rs | Some (inr st') => incl (sw_routes st) (sw_routes st') | None => True end.
Proof using All.
  assert (HP : forall pos node routes routed count r b, sw_routes (sw_proceed D d C L order true pos node routes routed count r b) = routes).
  { intros. unfold sw_proceed. destruct node as [n|]; [destruct (negb (routed n))|]; destruct (next_unrouted _ _ _ _ _ _); reflexivity. }
  unfold sw_iter. destruct (match sw_node st with Some n => _ | None => _ end) as [b1 c2] eqn:E. destruct (c2 || _); [|rewrite HP; apply incl_refl].
  match goal with |- context [match ?e with Some _ => _ | None => None end] => destruct e as [[[[[[? ?] ?] ?] c3] i2]|] end; [|exact I].
  destruct c3.
  - destruct (0 <? _)%nat; destruct (len <=? _)%nat; apply incl_refl || (apply incl_appl, incl_refl).
  - rewrite HP. destruct i2; [apply incl_appl|]; apply incl_refl.
Qed.

Lemma made_incl k l l' : made k l -> incl l l' -> made k l'.
Proof using All. intros (rd & H & H') Hi. exists rd. split; [apply Hi, H|exact H']. Qed.

Lemma loop_incl fuelL k : forall fuel st rs, loop fuelL fuel st = Some rs -> made k (sw_routes st) -> made k rs.
Proof using All.
  induction fuel as [|fuel IH]; intros st rs H Hm; [discriminate|]. cbn [sw_loop] in H. pose proof (iter_incl fuelL st) as HI.
  destruct (iter fuelL st) as [[rs'|st']|]; [injection H as <-|apply (IH _ _ H)|discriminate]; eapply made_incl; eassumption.
Qed.

Lemma sw_step_mod p : (p < len)%nat -> sw_step true (len - 1) p = ((p + 1) mod len)%nat.
Proof using All.
  intros H. unfold sw_step. destruct (Nat.eq_dec p (len - 1)) as [->|Hn].
  - replace (len - 1 + 1)%nat with len by lia. rewrite Nat.mod_same by lia. destruct (Nat.ltb_spec (len - 1) (S (len - 1))); lia.
  - rewrite Nat.mod_small by lia. destruct (Nat.ltb_spec (len - 1) (S p)); lia.
Qed.

Lemma ensure_now fuel pos cur routed : within L eps (sr_cost cur) -> ensure_L eps d C L f order true fuel pos pos cur routed = Some (pos, cur, routed).
Proof using All. intros H. rewrite <- exceeds_within in H. destruct fuel; cbn [ensure_L]; rewrite H; reflexivity. Qed.

(** At the end of the arc the route is kept *)
Lemma iter_last fuel st : At K st -> match iter fuel st with Some (inl rs) => made K rs | Some (inr st') => made K (sw_routes st') | None => False end.
Proof using All.
  intros (A1 & A2 & _). destruct Hsw as (Hs & HK & HF). destruct (HF K ltac:(lia)) as [_ HL].
  assert (HP : forall pos node routes routed count r b, sw_routes (sw_proceed D d C L order true pos node routes routed count r b) = routes).
  { intros. unfold sw_proceed. destruct node as [n|]; [destruct (negb (routed n))|]; destruct (next_unrouted _ _ _ _ _ _); reflexivity. }
  assert (Hlen : (0 <? length (sr_set (sw_current st)))%nat = true). { rewrite A1. unfold Spec_petal.arc. rewrite firstn_length, (rot_len order Hnd s Hs). lia. }
  assert (Hc1 : sr_cost (routed_by_f f (sw_current st)) = snd (f (0%nat :: arc K)) /\ sr_set (routed_by_f f (sw_current st)) = arc K).
  { unfold routed_by_f. rewrite A1. destruct (f (0%nat :: arc K)); auto. }
  destruct Hc1 as [Hc1 Hc2].
  assert (HM : forall l, made K (l ++ [routed_by_f f (sw_current st)])).
  { intros l. exists (routed_by_f f (sw_current st)). split; [apply in_or_app; right; now left|]. split; [exact Hc2|]. unfold routed_by_f. rewrite A1. destruct (f (0%nat :: arc K)); auto. }
  unfold sw_iter. destruct (match sw_node st with Some n => _ | None => _ end) as [b1 c2] eqn:E. rewrite Hlen. cbn [andb]. rewrite orb_true_r.
  assert (Hens : (if is_set L then match ensure_L eps d C L f order true fuel (sw_pos st) (sw_pos st) (routed_by_f f (sw_current st)) (sw_routed st) with
        | None => None
        | Some (p, r, routed) => if Nat.eqb p (sw_pos st) then Some (sw_pos st, sw_node st, r, routed, c2, true)
            else Some (p, match sw_node st with Some _ => Some (node_at order p) | None => None end, r, routed, true, false) end
      else Some (sw_pos st, sw_node st, routed_by_f f (sw_current st), sw_routed st, c2, true)) = Some (sw_pos st, sw_node st, routed_by_f f (sw_current st), sw_routed st, c2, true)).
  { destruct (is_set L); [|reflexivity]. rewrite ensure_now by (rewrite Hc1; exact HL). rewrite Nat.eqb_refl. reflexivity. }
  rewrite Hens, Hc2. rewrite A1 in Hlen. destruct c2.
  - rewrite Hlen. destruct (len <=? _)%nat; apply HM.
  - rewrite HP. apply HM.
Qed.

Lemma iter_next fuel k st : (k < K)%nat -> At k st -> exists st', iter fuel st = Some (inr st') /\ At (S k) st'.
Proof using All.
  intros Hk (A1 & A2 & A3). destruct Hsw as (Hs & HK & HF). destruct (A3 ltac:(lia)) as (B1 & B2 & B3 & B4). clear A3.
  destruct (HF (S k) ltac:(lia)) as [HC' HL']. rewrite (arc_S order Hnd s Hs) in HC', HL' by lia. set (n := node_at order ((s + k) mod len)) in *.
  assert (Hin : forall p, (p < len)%nat -> In (node_at order p) order) by (intros p Hp; apply nth_In, Hp).
  assert (Hmod : forall j, ((s + j) mod len < len)%nat) by (intros j; apply Nat.mod_upper_bound; lia).
  assert (HP : forall routes r b, sr_set r = arc k -> (is_set C = true -> sr_demand r = demand d (arc k)) ->
     At (S k) (sw_proceed D d C L order true (sw_pos st) (sw_node st) routes (sw_routed st) (sw_count st) r b)).
  { intros routes r b R1 R2. unfold sw_proceed. rewrite B2, B4 by (apply Hin, Hmod). 
    assert (Hm : mem n (arc k) = false). { destruct (mem n (arc k)) eqn:E; [|reflexivity]. apply mem_in in E. exfalso. exact (arc_new order Hnd s Hs k ltac:(lia) E). }
    rewrite Hm. cbn [negb].
    destruct (next_unrouted order true len (sw_pos st) (sw_pos st) (upd (sw_routed st) n true)) as [p' nd] eqn:En.
    unfold At. cbn [sw_current sw_pos sw_node sw_complete sw_routed add_node sr_set sr_demand]. rewrite R1, (arc_S order Hnd s Hs) by lia. fold n.
    split; [reflexivity|]. split; [intros HC; rewrite HC, (R2 HC), demand_snoc; reflexivity|]. intros HSk.
    assert (Hroute : forall x, In x order -> upd (sw_routed st) n true x = mem x (arc k ++ [n])).
    { intros x Hx. unfold upd. destruct (Nat.eqb_spec x n) as [->|Hn]; [symmetry; apply mem_in, in_or_app; right; now left|]. rewrite B4 by exact Hx.
      apply Bool.eq_iff_eq_true. rewrite !mem_in, in_app_iff. cbn. intuition congruence. }
    assert (Hstep : sw_step true (len - 1) (sw_pos st) = ((s + S k) mod len)%nat).
    { rewrite sw_step_mod by (rewrite B1; apply Hmod). rewrite B1, Nat.add_mod_idemp_l by lia. f_equal. lia. }
    assert (Hu : upd (sw_routed st) n true (node_at order ((s + S k) mod len)) = false).
    { rewrite Hroute by (apply Hin, Hmod). destruct (mem (node_at order ((s + S k) mod len)) (arc k ++ [n])) eqn:E; [|reflexivity]. apply mem_in in E. unfold n in E. rewrite <- (arc_S order Hnd s Hs) in E by lia. exfalso. exact (arc_new order Hnd s Hs (S k) HSk E). }
    rewrite next_now in En by (rewrite Hstep; exact Hu). rewrite Hstep in En. injection En as <- <-. auto. }
  unfold sw_iter. rewrite B2, B3. cbn [orb].
  assert (E1 : exceeds C eps (sr_demand (sw_current st) + d n) = false).
  { destruct (is_set C) eqn:EC; [rewrite A2 by reflexivity; rewrite exceeds_within; rewrite demand_snoc in HC'; exact HC'|].
    apply exceeds_within. destruct C as [c|]; [|exact I]. unfold is_set, truthy in EC. intros Hne. destruct (Z.eqb_spec c 0); [contradiction|discriminate]. }
  rewrite E1. cbn [negb andb]. rewrite A1.
  assert (E2 : exceeds L eps (snd (f (0%nat :: arc k ++ [n]))) = false) by (rewrite exceeds_within; exact HL').
  rewrite E2. assert (E3 : (if exceeds L 0 (sw_bound st) then (snd (f (0%nat :: arc k ++ [n])), false) else (sw_bound st, false)) = (if exceeds L 0 (sw_bound st) then snd (f (0%nat :: arc k ++ [n])) else sw_bound st, false)) by (destruct (exceeds L 0 _); reflexivity).
  rewrite E3. clear E3. cbn [orb].
  destruct (Nat.eq_dec k 0) as [->|Hk0].
  - assert (length (arc 0) = 0%nat) as -> by reflexivity. change (0 <? 0)%nat with false. cbn [andb orb]. eexists. split; [reflexivity|]. rewrite <- B2. apply HP; assumption.
  - assert (Hlen : (0 <? length (arc k))%nat = true) by (unfold Spec_petal.arc; rewrite firstn_length, (rot_len order Hnd s Hs); lia).
    rewrite Hlen. cbn [andb orb]. destruct (HF k ltac:(lia)) as [_ HLk].
    assert (Hc1 : sr_cost (routed_by_f f (sw_current st)) = snd (f (0%nat :: arc k)) /\ sr_set (routed_by_f f (sw_current st)) = arc k /\ sr_demand (routed_by_f f (sw_current st)) = sr_demand (sw_current st)).
    { unfold routed_by_f. rewrite A1. destruct (f (0%nat :: arc k)); auto. }
    destruct Hc1 as (Hc1 & Hc2 & Hc3).
    rewrite ensure_now by (rewrite Hc1; exact HLk). rewrite Nat.eqb_refl.
    assert (Hens : forall (X : Type) (x : X), (if is_set L then x else x) = x) by (intros; destruct (is_set L); reflexivity). rewrite Hens.
    eexists. split; [reflexivity|]. rewrite <- B2. apply HP; [exact Hc2|]. intros HC. rewrite Hc3. apply A2, HC.
Qed.

Lemma loop_made fuelL : forall fuel k st rs, (k <= K)%nat -> At k st -> loop fuelL fuel st = Some rs -> made K rs.
Proof using All.
  induction fuel as [|fuel IH]; intros k st rs Hk HA H; [discriminate|]. cbn [sw_loop] in H. destruct (Nat.eq_dec k K) as [->|Hn].
  - pose proof (iter_last fuelL st HA) as HI. destruct (iter fuelL st) as [[rs'|st']|]; [now injection H as <-|eapply loop_incl; eassumption|discriminate].
  - destruct (iter_next fuelL k st ltac:(lia) HA) as (st' & E & HA'). rewrite E in H. apply (IH (S k) st' rs ltac:(lia) HA' H).
Qed.

Lemma sweep_made fuel rds : ~ In 0%nat order -> do_one_sweep eps eps D d C L f order true true s fuel = Some (Some rds) -> made K rds.
Proof using All.
  intros H0 H. destruct Hsw as (Hs & HK & HF). unfold do_one_sweep in H. destruct (nth_error order s) as [n|] eqn:En; [|discriminate].
  destruct (loop fuel fuel _) as [rs|] eqn:E; [|discriminate]. cbn in H. injection H as <-. refine (loop_made _ _ 0%nat _ _ _ _ E); [lia|].
  unfold At. cbn [sw_current sw_pos sw_node sw_complete sw_routed sr_new sr_set sr_demand]. split; [reflexivity|]. split; [reflexivity|]. intros _.
  rewrite Nat.add_0_r, Nat.mod_small by exact Hs. split; [reflexivity|]. split; [unfold node_at; f_equal; symmetry; apply nth_error_nth, En|]. split; [reflexivity|].
  intros x Hx. destruct (Nat.eqb_spec x 0); [subst; contradiction|reflexivity].
Qed.
End Complete.

Lemma store_seen eps ratio C C_t g rd : In (rd_normalize (sr_route rd)) (gn_seen (gen_store eps ratio C C_t g rd)) /\ incl (gn_seen g) (gn_seen (gen_store eps ratio C C_t g rd)).
Proof.
  unfold gen_store. destruct (seen_in (rd_normalize (sr_route rd)) (gn_seen g)) eqn:E; [split; [apply seen_in_true, E|apply incl_refl]|].
  destruct (classify _ _ _ _ _); cbn [gn_seen]; (split; [apply in_or_app; right; now left|apply incl_appl, incl_refl]).
Qed.
Lemma stores_seen eps ratio C C_t rds : forall g, (forall rd, In rd rds -> In (rd_normalize (sr_route rd)) (gn_seen (fold_left (gen_store eps ratio C C_t) rds g))) /\
  incl (gn_seen g) (gn_seen (fold_left (gen_store eps ratio C C_t) rds g)).
Proof.
  induction rds as [|rd rds IH]; intros g; cbn [fold_left]; [split; [intros ? []|apply incl_refl]|]. destruct (store_seen eps ratio C C_t g rd) as [S1 S2].
  destruct (IH (gen_store eps ratio C C_t g rd)) as [I1 I2]. split; [|eapply incl_tran; eassumption]. intros rd' [<-|H]; [apply I2, S1|apply I1, H].
Qed.
Lemma starts_seen eps ratio C_t D d C L f order fuel starts : forall g g', gen_starts eps ratio C_t D d C L f order fuel starts g = Some g' ->
  incl (gn_seen g) (gn_seen g') /\ forall s, In s starts -> exists rds, do_one_sweep eps eps D d C L f order true true s fuel = Some (Some rds) /\ forall rd, In rd rds -> In (rd_normalize (sr_route rd)) (gn_seen g').
Proof.
  induction starts as [|s rest IH]; intros g g' H; cbn [gen_starts] in H; [injection H as <-; split; [apply incl_refl|intros ? []]|].
  destruct (do_one_sweep eps eps D d C L f order true true s fuel) as [[rds|]|] eqn:E; try discriminate. destruct (IH _ _ H) as [I1 I2]. destruct (stores_seen eps ratio C C_t rds g) as [S1 S2].
  split; [eapply incl_tran; eassumption|]. intros s' [<-|Hs]; [exists rds; split; [exact E|intros rd Hr; apply I1, S1, Hr]|apply I2, Hs].
Qed.

Lemma generate_all eps ratio C_t N D d C L f order fuel g : Permutation order (seq 1 (N - 1)) -> generate_petals eps ratio C_t N D d C L f order fuel = Some g ->
  forall s k, swept D d C L eps f order s k -> In (rd_normalize (fst (f (0%nat :: arc order s k)))) (gn_seen g).
Proof.
  intros Hp H s k Hs. destruct (starts_seen _ _ _ _ _ _ _ _ _ _ _ _ _ H) as [_ HS]. pose proof (Permutation_length Hp) as HL. rewrite seq_length in HL.
  assert (Hin : In s (range 0 (N - 1))). { unfold range. apply in_seq. destruct Hs as [Hs _]. lia. }
  destruct (HS s Hin) as (rds & E & HR).
  assert (Hnd : NoDup order) by (apply (Permutation_NoDup (Permutation_sym Hp)), seq_NoDup).
  assert (H0 : ~ In 0%nat order) by (intros X; apply (Permutation_in _ Hp), in_seq in X; lia).
  destruct (sweep_made eps D d C L f order Hnd s k Hs fuel rds H0 E) as (rd & R1 & R2 & R3 & _). rewrite <- R3. apply HR, R1.
Qed.
