(** * The generalized assignment heuristic: a solver for its programs, the last seed, and the groups of cones *)
From Verif Require Import Spec_rfcs Spec_inter Spec_savings PyBase M_util M_psavings P_base P_util M_gap Spec_gap P_gap P_gap2 P_gap3 Spec.
From Coq Require Import ZifyBool ZifyNat Lia List Permutation.
Import ListNotations.
Local Open Scope Z_scope.

(** ** A solver that tries everything *)
Fixpoint all_lists (n K : nat) : list (list nat) :=
  match n with O => [[]] | S n' => flat_map (fun l => map (fun k => k :: l) (seq 0 K)) (all_lists n' K) end.
Lemma all_lists_in : forall n K l, In l (all_lists n K) <-> length l = n /\ Forall (fun k => (k < K)%nat) l.
Proof.
  induction n as [|n IH]; intros K l; cbn [all_lists].
  - split; [intros [<-|[]]; split; [reflexivity|constructor]|]. intros [E _]. left. destruct l; [reflexivity|discriminate].
  - rewrite in_flat_map. split.
    + intros (l' & Hl' & Hl). apply in_map_iff in Hl. destruct Hl as (k & <- & Hk). apply in_seq in Hk. apply IH in Hl'. destruct Hl' as [E F]. cbn. split; [lia|]. constructor; [lia|exact F].
    + intros [E F]. destruct l as [|k l]; [discriminate|]. inversion F; subst. exists l. split; [apply IH; auto|]. apply (in_map (fun j => j :: l)), in_seq. lia.
Qed.
Definition by_list (l : list nat) : nat -> nat -> bool := fun i k => Nat.eqb (nth (i - 1) l 0%nat) k.
Definition hardb (p : gap) (l : list nat) : bool :=
  forallb (fun k => negb (exceeds (gp_C p) 0 (demand (gp_d p) (on_route (by_list l) (gp_N p) k)))) (seq 0 (gp_K p)).
Definition shortb (p : gap) (l : list nat) : bool :=
  forallb (fun k => negb (exceeds (option_map (Z.mul 100) (gp_L p)) 0 (gp_mult p * sumZ (map (fun i => gp_cost p i k) (on_route (by_list l) (gp_N p) k))))) (seq 0 (gp_K p)).
Definition cheaper (p : gap) (a b : list nat) : list nat := if gap_value p (by_list b) <? gap_value p (by_list a) then b else a.
Definition try_all (t : nat) (p : gap) (relaxed : bool) : gap_status :=
  match filter (fun l => hardb p l && (relaxed || shortb p l)) (all_lists (gp_N p - 1) (gp_K p)) with
  | [] => GInfeasible
  | l :: ls => GOptimal (by_list (fold_left (cheaper p) ls l))
  end.
Lemma cheaper_min p : forall ls l, In (fold_left (cheaper p) ls l) (l :: ls) /\ forall x, In x (l :: ls) -> gap_value p (by_list (fold_left (cheaper p) ls l)) <= gap_value p (by_list x).
Proof.
  induction ls as [|y ls IH]; intros l; [cbn; split; [auto|]; intros x [<-|[]]; lia|]. cbn [fold_left]. destruct (IH (cheaper p l y)) as [I1 I2]. split.
  - unfold cheaper in *. destruct (_ <? _); cbn in *; tauto.
  - assert (G : gap_value p (by_list (cheaper p l y)) <= gap_value p (by_list l) /\ gap_value p (by_list (cheaper p l y)) <= gap_value p (by_list y)).
    { unfold cheaper. destruct (Z.ltb_spec (gap_value p (by_list y)) (gap_value p (by_list l))); lia. }
    pose proof (I2 (cheaper p l y) (or_introl eq_refl)). intros x [<-|[<-|Hx]]; [lia|lia|]. apply I2. now right.
Qed.
Lemma hardb_ok p l : length l = (gp_N p - 1)%nat -> Forall (fun k => (k < gp_K p)%nat) l -> (hardb p l = true <-> hard p (by_list l)).
Proof.
  intros El Fl. unfold hardb. rewrite forallb_forall. split.
  - intros H. split.
    + intros i Hi. exists (nth (i - 1) l 0%nat). split; [rewrite Forall_forall in Fl; apply Fl, nth_In; lia|]. split; [apply Nat.eqb_refl|]. intros k' _ E. apply Nat.eqb_eq in E. now symmetry.
    + intros k Hk. specialize (H k ltac:(apply in_seq; lia)). apply negb_true_iff in H. now apply exceeds_within in H.
  - intros [_ H] k Hk. apply in_seq in Hk. apply negb_true_iff, exceeds_within, H. lia.
Qed.
Lemma shortb_ok p l : shortb p l = true <-> short p (by_list l).
Proof.
  unfold shortb, short. rewrite forallb_forall. split.
  - intros H k Hk. specialize (H k ltac:(apply in_seq; lia)). apply negb_true_iff in H. now apply exceeds_within in H.
  - intros H k Hk. apply in_seq in Hk. apply negb_true_iff, exceeds_within, H. lia.
Qed.
(** Any assignment as a list *)
Definition choose (Y : nat -> nat -> bool) (K i : nat) : nat := match find (Y i) (seq 0 K) with Some k => k | None => 0%nat end.
Lemma choose_ok p Y i : hard p Y -> (1 <= i < gp_N p)%nat -> (choose Y (gp_K p) i < gp_K p)%nat /\ forall k, (k < gp_K p)%nat -> (Y i k = true <-> k = choose Y (gp_K p) i).
Proof.
  intros [H _] Hi. destruct (H i Hi) as (k0 & Hk0 & E0 & U). unfold choose. destruct (find (Y i) (seq 0 (gp_K p))) as [k1|] eqn:E1.
  - apply find_some in E1. destruct E1 as [H1 E1]. apply in_seq in H1. split; [lia|]. intros k Hk. split; [intros E; rewrite (U k Hk E), (U k1 ltac:(lia) E1); reflexivity|intros ->; exact E1].
  - apply (find_none _ _) with (x := k0) in E1; [congruence|]. apply in_seq. lia.
Qed.
Definition as_list (p : gap) (Y : nat -> nat -> bool) : list nat := map (choose Y (gp_K p)) (seq 1 (gp_N p - 1)).
Lemma as_list_in p Y : hard p Y -> In (as_list p Y) (all_lists (gp_N p - 1) (gp_K p)).
Proof.
  intros H. apply all_lists_in. unfold as_list. split; [now rewrite map_length, seq_length|]. apply Forall_forall. intros k Hk. apply in_map_iff in Hk. destruct Hk as (i & <- & Hi). apply in_seq in Hi. apply (choose_ok p Y i H). lia.
Qed.
Lemma as_list_route p Y k : hard p Y -> (k < gp_K p)%nat -> on_route (by_list (as_list p Y)) (gp_N p) k = on_route Y (gp_N p) k.
Proof.
  intros H Hk. unfold on_route. apply filter_ext_in. intros i Hi. apply in_seq in Hi. unfold by_list, as_list.
  rewrite (nth_indep _ 0%nat (choose Y (gp_K p) 0%nat)) by (rewrite map_length, seq_length; lia). rewrite map_nth, seq_nth by lia. replace (1 + (i - 1))%nat with i by lia.
  destruct (choose_ok p Y i H ltac:(lia)) as [_ U]. specialize (U k Hk). destruct (Y i k); [apply Nat.eqb_eq; symmetry; now apply U|apply Nat.eqb_neq; intros E; symmetry in E; apply U in E; discriminate].
Qed.
Lemma as_list_hard p Y : hard p Y -> hardb p (as_list p Y) = true.
Proof. intros H. unfold hardb. apply forallb_forall. intros k Hk. apply in_seq in Hk. rewrite as_list_route by (auto; lia). apply negb_true_iff, exceeds_within, H. lia. Qed.
Lemma as_list_short p Y : hard p Y -> short p Y -> shortb p (as_list p Y) = true.
Proof. intros H HS. unfold shortb. apply forallb_forall. intros k Hk. apply in_seq in Hk. rewrite as_list_route by (auto; lia). apply negb_true_iff, exceeds_within, HS. lia. Qed.
Lemma as_list_value p Y : hard p Y -> gap_value p (by_list (as_list p Y)) = gap_value p Y.
Proof. intros H. unfold gap_value. f_equal. apply map_ext_in. intros k Hk. apply in_seq in Hk. now rewrite as_list_route by (auto; lia). Qed.
Lemma try_all_honest : gap_honest try_all.
Proof.
  intros t p. assert (G : forall b, match try_all t p b with
     | GOptimal Y => hard p Y /\ (b = false -> short p Y) /\ forall Y', hard p Y' -> (b = false -> short p Y') -> gap_value p Y <= gap_value p Y'
     | GInfeasible => forall Y, hard p Y -> (b = false -> short p Y) -> False
     | _ => False end).
  { intros b. unfold try_all. destruct (filter _ _) as [|l ls] eqn:E.
    - intros Y HY HS. assert (Hin : In (as_list p Y) []).
      { rewrite <- E. apply filter_In. split; [now apply as_list_in|]. rewrite as_list_hard by exact HY. destruct b; [reflexivity|]. cbn. apply as_list_short; auto. }
      destruct Hin.
    - destruct (cheaper_min p ls l) as [Hin Hmin]. set (x := fold_left (cheaper p) ls l) in *. rewrite <- E in Hin. apply filter_In in Hin. destruct Hin as [Ha Hb].
      apply all_lists_in in Ha. destruct Ha as [La Fa]. apply andb_true_iff in Hb. destruct Hb as [Hh Hs]. split; [now apply hardb_ok|]. split.
      + intros ->. cbn in Hs. now apply shortb_ok.
      + intros Y HY HS. rewrite <- (as_list_value p Y HY). apply Hmin. rewrite <- E. apply filter_In. split; [now apply as_list_in|]. rewrite as_list_hard by exact HY.
        destruct b; [reflexivity|]. cbn. apply as_list_short; auto. }
  split.
  - specialize (G false). destruct (try_all t p false); try destruct G; auto; [split; [tauto|]|]; firstorder.
  - specialize (G true). destruct (try_all t p true); try tauto. intros Y HY. eapply G; [exact HY|discriminate].
Qed.
Lemma try_all_patient : gap_patient try_all.
Proof. intros t p b. unfold try_all. destruct (filter _ _); split; discriminate. Qed.
Lemma same_filter p q (l : list nat) : same_gap p q -> hardb p l = hardb q l /\ shortb p l = shortb q l /\ gap_value p (by_list l) = gap_value q (by_list l).
Proof.
  intros (EN & EK & Ed & EC & EL & EM & EV).
  assert (G : forall k, (k < gp_K p)%nat -> map (fun i => gp_cost p i k) (on_route (by_list l) (gp_N p) k) = map (fun i => gp_cost q i k) (on_route (by_list l) (gp_N p) k)).
  { intros k Hk. apply map_ext_in. intros i Hi. apply on_route_in in Hi. apply EV; [lia|exact Hk]. }
  split; [unfold hardb; now rewrite EN, EK, Ed, EC|]. split.
  - unfold shortb. rewrite EK, EL, EM, EN in *. rewrite <- EK in *. clear - G EK. assert (X : forall ks, (forall k, In k ks -> (k < gp_K p)%nat) ->
      forallb (fun k => negb (exceeds (option_map (Z.mul 100) (gp_L q)) 0 (gp_mult q * sumZ (map (fun i => gp_cost p i k) (on_route (by_list l) (gp_N q) k))))) ks =
      forallb (fun k => negb (exceeds (option_map (Z.mul 100) (gp_L q)) 0 (gp_mult q * sumZ (map (fun i => gp_cost q i k) (on_route (by_list l) (gp_N q) k))))) ks).
    { induction ks as [|k ks IH]; intros H; [reflexivity|]. cbn [forallb]. rewrite G by (apply H; now left). f_equal. apply IH. intros k' Hk'. apply H. now right. }
    apply X. intros k Hk. apply in_seq in Hk. lia.
  - unfold gap_value. rewrite <- EK, <- EN. f_equal. apply map_ext_in. intros k Hk. apply in_seq in Hk. now rewrite G by lia.
Qed.
Lemma try_all_reads : gap_reads try_all.
Proof.
  intros t p q b S. pose proof S as (EN & EK & _). unfold try_all. rewrite EN, EK.
  rewrite (filter_ext _ (fun l => hardb q l && (b || shortb q l))) by (intros l; destruct (same_filter p q l S) as (-> & -> & _); reflexivity).
  destruct (filter _ _) as [|l ls]; [reflexivity|]. do 2 f_equal. revert l. induction ls as [|y ls IH]; intros l; [reflexivity|]. cbn [fold_left].
  assert (E : cheaper p l y = cheaper q l y) by (unfold cheaper; now rewrite (proj2 (proj2 (same_filter p q l S))), (proj2 (proj2 (same_filter p q y S)))). rewrite E. apply IH.
Qed.

(** ** The last seed does not matter *)
Lemma solve_same gurobi t p q : gap_reads gurobi -> same_gap p q -> solve_gap (gurobi t) p = solve_gap (gurobi t) q.
Proof.
  intros HR S. unfold solve_gap. rewrite (HR t p q false S), (HR t p q true S). destruct S as (-> & -> & _ & _ & -> & _). reflexivity.
Qed.
Lemma last_seed eps N D d C L f edges seeds1 seeds2 half_st gurobi K mk fo ua ik fuel : gap_reads gurobi -> same_but_last seeds1 seeds2 ->
  gap_init eps N D d C L f edges seeds1 half_st gurobi K mk fo ua ik fuel = gap_init eps N D d C L f edges seeds2 half_st gurobi K mk fo ua ik fuel.
Proof.
  intros HR HS. unfold gap_init. destruct (start_K _ _ _ _ _ _ _ _ _) as [[startK maxK|]|]; try reflexivity. destruct (maxK <? startK)%nat; [reflexivity|].
  assert (G : forall n st, gap_turns eps N D d C L f seeds1 half_st gurobi mk fo ua ik maxK (max_K_increase startK) n st = gap_turns eps N D d C L f seeds2 half_st gurobi mk fo ua ik maxK (max_K_increase startK) n st); [|now rewrite G].
  induction n as [|n IH]; intros st; [reflexivity|]. cbn [gap_turns].
  assert (E : gap_turn eps N D d C L f seeds1 half_st gurobi mk fo ua ik maxK (max_K_increase startK) st = gap_turn eps N D d C L f seeds2 half_st gurobi mk fo ua ik maxK (max_K_increase startK) st).
  { unfold gap_turn. specialize (HS (g_K st + g_inc st)%nat (g_trial st)). destruct (seeds1 _ _) as [a|], (seeds2 _ _) as [b|]; try easy.
    rewrite (solve_same gurobi _ _ (build_gap N (stacked D half_st b) d C (g_K st + g_inc st) L (multiplier L ua (g_tries st))) HR); [reflexivity|].
    repeat split. intros i k Hi Hk. cbn [gp_cost build_gap gp_N gp_K] in *. destruct k as [|k]; [reflexivity|]. cbn [stacked]. rewrite !(HS k) by lia. reflexivity. }
  rewrite E. destruct (gap_turn _ _ _ _ _ _ _ seeds2 _ _ _ _ _ _ _ _ _) as [st'|r]; [apply IH|reflexivity].
Qed.

(** ** Groups of cones *)
Section Cones.
Variables (eps target : Z) (w : nat -> Z).
Hypothesis Heps : 0 < eps <= 1.
Hypothesis Ht : 0 < target.
Hypothesis Hw : forall n, 0 <= w n.
Notation step := (cone_step eps target w).
Lemma cones_most : forall order, let '(cum, nodes, groups) := fold_left step order (0, [], []) in
  0 <= cum /\ Forall (fun g => target <= fst g) groups /\ sumZ (map fst groups) + cum = sumZ (map w order).
Proof.
  intros order. rewrite <- (rev_involutive order). induction (rev order) as [|n l IH]; [cbn; repeat split; [lia|constructor]|]. cbn [rev].
  rewrite fold_left_app, map_app. cbn [fold_left]. destruct (fold_left step (rev l) (0, [], [])) as [[cum nodes] groups]. destruct IH as (H1 & H2 & H3).
  assert (ES : sumZ (map w (rev l) ++ map w [n]) = sumZ (map w (rev l)) + w n) by (rewrite <- map_app, sum_app; unfold sumZ; cbn [map fold_right]; lia). rewrite ES.
  unfold cone_step. set (wt := if w n =? 0 then 0 else Z.min (w n) (target - cum)). pose proof (Hw n).
  assert (Hwt : wt <= w n /\ (wt < w n -> wt = target - cum)) by (unfold wt; destruct (w n =? 0) eqn:E; lia).
  assert (AG : forall x y, sumZ (map fst (groups ++ [(x, y : list nat)])) = sumZ (map fst groups) + x) by (intros x y; rewrite map_app; clear; unfold sumZ; induction (map fst groups) as [|z zs IHz]; cbn [app map fst fold_right] in *; lia).
  destruct (Z.ltb_spec (target - (cum + wt)) eps) as [E|E].
  - destruct (Z.ltb_spec wt (w n)); rewrite AG; (split; [lia|]); (split; [apply Forall_app; split; [exact H2|]; constructor; [cbn; lia|constructor]|lia]).
  - split; [|split; [exact H2|lia]]. clear Hwt. unfold wt in E |- *. destruct (w n =? 0) eqn:E0; lia.
Qed.
Lemma cones_exact : forall order, (forall n, In n order -> w n <= target) -> let '(cum, nodes, groups) := fold_left step order (0, [], []) in
  0 <= cum < target /\ Forall (fun g => fst g = target) groups /\ target * Z.of_nat (length groups) + cum = sumZ (map w order) /\
  (cum = 0 -> Forall (fun n => w n = 0) nodes) /\ (forall n, In n order -> In n nodes \/ exists g, In g groups /\ In n (snd g)).
Proof.
  intros order. rewrite <- (rev_involutive order). induction (rev order) as [|n l IH]; intros Hle; [cbn; repeat split; [lia|lia|constructor|lia|constructor|tauto]|]. cbn [rev].
  rewrite fold_left_app, map_app. cbn [fold_left]. cbn [rev] in Hle. specialize (IH ltac:(intros x Hx; apply Hle, in_or_app; now left)). specialize (Hle n ltac:(apply in_or_app; right; now left)).
  destruct (fold_left step (rev l) (0, [], [])) as [[cum nodes] groups]. destruct IH as (H1 & H2 & H3 & H4 & H5).
  assert (ES : sumZ (map w (rev l) ++ map w [n]) = sumZ (map w (rev l)) + w n) by (rewrite <- map_app, sum_app; unfold sumZ; cbn [map fold_right]; lia). rewrite ES.
  unfold cone_step. set (wt := if w n =? 0 then 0 else Z.min (w n) (target - cum)). pose proof (Hw n).
  assert (Hwt : 0 <= wt <= w n /\ wt <= target - cum /\ (0 < w n -> 0 < wt) /\ (wt < w n -> wt = target - cum)) by (unfold wt; destruct (w n =? 0) eqn:E; lia).
  assert (HI : forall m x nodes' groups', In m (rev l ++ [n]) -> (In n nodes' \/ exists g, In g groups' /\ In n (snd g)) -> (groups' = groups ++ [(x, nodes ++ [n])] \/ (groups' = groups /\ nodes' = nodes ++ [n])) ->
     In m nodes' \/ exists g, In g groups' /\ In m (snd g)).
  { intros m x nodes' groups' Hm Hn Hg. apply in_app_iff in Hm. destruct Hm as [Hm|[<-|[]]]; [|exact Hn]. destruct (H5 m Hm) as [X|(g & G1 & G2)]; destruct Hg as [->|[-> ->]].
    - right. exists (x, nodes ++ [n]). split; [apply in_or_app; right; now left|]. apply in_or_app. now left.
    - left. apply in_or_app. now left.
    - right. exists g. split; [apply in_or_app; now left|exact G2].
    - right. eauto. }
  destruct (Z.ltb_spec (target - (cum + wt)) eps) as [E|E].
  - assert (EN : forall nodes', In n nodes' \/ exists g, In g (groups ++ [(cum + wt, nodes ++ [n])]) /\ In n (snd g)).
    { intros nodes'. right. exists (cum + wt, nodes ++ [n]). split; [apply in_or_app; right; now left|]. apply in_or_app. right. now left. }
    destruct (Z.ltb_spec wt (w n)); rewrite app_length; cbn [length]; (split; [lia|]); (split; [apply Forall_app; split; [exact H2|]; constructor; [cbn; lia|constructor]|]); (split; [lia|]);
      (split; [intros; first [lia|constructor]|]); intros m Hm; eapply HI; [exact Hm|apply EN|now left|exact Hm|apply EN|now left].
  - split; [lia|]. split; [exact H2|]. split; [lia|]. split.
    + intros E0. assert (cum = 0) by lia. assert (w n = 0) by lia. apply Forall_app. split; [auto|]. constructor; [assumption|constructor].
    + intros m Hm. apply (HI m 0 (nodes ++ [n]) groups Hm); [left; apply in_or_app; right; now left|right; auto].
Qed.
End Cones.
Lemma cone_order_lt (sweep : list nat) t : (t < length sweep)%nat -> cone_order sweep t = skipn t sweep ++ firstn t sweep.
Proof.
  intros H. unfold cone_order. assert (E : firstn (t + 1) sweep = firstn t sweep ++ [nth t sweep 0%nat]).
  { revert t H. induction sweep as [|x l IH]; intros t H; [cbn in H; lia|]. destruct t as [|t]; [reflexivity|]. cbn [firstn Nat.add nth app]. f_equal. apply IH. cbn in H. lia. }
  rewrite E, app_assoc, removelast_last. reflexivity.
Qed.
Lemma cone_order_perm (sweep : list nat) t : (t < length sweep)%nat -> Permutation (cone_order sweep t) sweep.
Proof. intros H. rewrite cone_order_lt by exact H. rewrite Permutation_app_comm. now rewrite firstn_skipn. Qed.
Lemma scaled_sum K (d : nat -> Z) l : sumZ (map (fun n => K * d n) l) = K * sumZ (map d l).
Proof. unfold sumZ. induction l; cbn [map fold_right]; lia. Qed.
Lemma groups_K eps d K sweep t : (1 <= K)%nat -> 0 < eps <= 1 -> (forall n, 0 <= d n) -> 0 < demand d sweep -> (t < length sweep)%nat ->
  (forall n, In n sweep -> Z.of_nat K * d n <= demand d sweep) ->
  let groups := cone_groups eps d K (demand d sweep) (cone_order sweep t) in
  length groups = K /\ Forall (fun g => fst g = demand d sweep) groups /\ forall n, In n sweep -> 0 < d n -> exists g, In g groups /\ In n (snd g).
Proof.
  intros HK He Hd Hs Ht Hle. unfold cone_groups. pose proof (cone_order_perm sweep t Ht) as HP.
  assert (Hw : forall n, 0 <= Z.of_nat K * d n) by (intros n; pose proof (Hd n); nia).
  pose proof (cones_exact eps (demand d sweep) (fun n => Z.of_nat K * d n) He Hs Hw (cone_order sweep t) ltac:(intros n Hn; apply Hle, (Permutation_in _ HP), Hn)) as G.
  destruct (fold_left _ _ _) as [[cum nodes] groups]. destruct G as (H1 & H2 & H3 & H4 & H5). cbn [snd].
  rewrite scaled_sum, (sum_perm d _ _ HP) in H3. fold (demand d sweep) in H3.
  assert (EK : Z.of_nat (length groups) = Z.of_nat K).
  { clear - H1 H3 Hs. set (a := Z.of_nat (length groups)) in *. set (b := Z.of_nat K) in *. set (x := demand d sweep) in *. clearbody a b x.
    assert (E : x * (b - a) = cum) by lia. destruct (Z.lt_trichotomy (b - a) 0) as [G|[G|G]]; [|lia|]; exfalso; nia. }
  assert (cum = 0) by nia. split; [lia|]. split; [exact H2|].
  intros n Hn Hp. destruct (H5 n (Permutation_in _ (Permutation_sym HP) Hn)) as [X|X]; [|exact X]. specialize (H4 H). rewrite Forall_forall in H4. specialize (H4 n X). cbn beta in H4.
  exfalso. nia.
Qed.
Lemma groups_most eps d K sweep t : 0 < eps <= 1 -> (forall n, 0 <= d n) -> 0 < demand d sweep ->
  (length (cone_groups eps d K (demand d sweep) (cone_order sweep t)) <= K)%nat.
Proof.
  intros He Hd Hs. unfold cone_groups. assert (Hw : forall n, 0 <= Z.of_nat K * d n) by (intros n; pose proof (Hd n); nia).
  pose proof (cones_most eps (demand d sweep) (fun n => Z.of_nat K * d n) He Hs Hw (cone_order sweep t)) as G. destruct (fold_left _ _ _) as [[cum nodes] groups]. destruct G as (H1 & H2 & H3). cbn [snd].
  rewrite scaled_sum in H3.
  assert (HQ : sumZ (map d (cone_order sweep t)) <= demand d sweep).
  { destruct (Nat.lt_ge_cases t (length sweep)) as [G|G]; [rewrite (sum_perm d _ _ (cone_order_perm sweep t G)); unfold demand; lia|]. unfold cone_order. rewrite skipn_all2, firstn_all2 by lia. cbn [app].
    destruct sweep as [|x l]; [cbn; unfold demand; cbn; lia|]. rewrite (app_removelast_last 0%nat (l := x :: l)) at 2 by discriminate. unfold demand. rewrite sum_app. pose proof (Hd (last (x :: l) 0%nat)). unfold sumZ in *; cbn [map fold_right]; lia. }
  assert (HB : demand d sweep * Z.of_nat (length groups) <= sumZ (map fst groups)).
  { clear - H2. induction H2 as [|g gs Hg _ IH]; [cbn; lia|]. cbn [map length]. unfold sumZ in *. cbn [fold_right]. lia. }
  nia.
Qed.
