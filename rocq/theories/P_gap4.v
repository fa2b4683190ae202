(** * The generalized assignment heuristic: without a length limit it finds the fewest routes *)
From Verif Require Import Spec_rfcs Spec_inter Spec_savings PyBase M_util M_psavings P_base P_cvrp P_util P_savfam M_gap Spec_gap P_gap P_gap2 P_gap3 Spec.
From Coq Require Import ZifyBool ZifyNat Lia List Permutation.
Import ListNotations.
Local Open Scope Z_scope.

(** ** Routes as an assignment *)
Lemma concat_once : forall (l : list (list nat)) k k' x, NoDup (concat l) -> In x (nth k l []) -> In x (nth k' l []) -> k = k'.
Proof.
  induction l as [|r l IH]; intros k k' x Hn H H'; [destruct k; destruct H|]. cbn [concat] in Hn.
  assert (G : forall j, In x (nth j l []) -> In x (concat l)).
  { intros j Hj. apply in_concat. exists (nth j l []). split; [|exact Hj]. destruct (Nat.lt_ge_cases j (length l)) as [G|G]; [now apply nth_In|rewrite nth_overflow in Hj by exact G; destruct Hj]. }
  assert (X : In x r -> In x (concat l) -> False).
  { clear - Hn. induction r as [|y r IH]; [easy|]. cbn in Hn. inversion Hn; subst. intros [->|Hx] Hc; [apply H1; apply in_or_app; now right|now apply IH]. }
  assert (N2 : NoDup (concat l)) by (clear - Hn; induction r; [exact Hn|cbn in Hn; inversion Hn; auto]).
  destruct k as [|k], k' as [|k']; cbn [nth] in *; [reflexivity|destruct X; eauto|destruct X; eauto|f_equal; eauto].
Qed.
Definition as_assignment (rs : list (list nat)) : nat -> nat -> bool := fun i k => existsb (Nat.eqb i) (nth k rs []).
Lemma as_in rs i k : as_assignment rs i k = true <-> In i (nth k rs []).
Proof. unfold as_assignment. rewrite existsb_exists. split; [intros (x & Hx & E); apply Nat.eqb_eq in E; now subst|intros H; exists i; split; [exact H|apply Nat.eqb_refl]]. Qed.
Lemma packs_hard p c rs : gp_C p = Some c -> gp_K p = length rs -> packs (gp_N p) (gp_d p) c rs -> hard p (as_assignment rs).
Proof.
  intros EC EK [HP HF]. assert (Hn : NoDup (concat rs)) by (eapply Permutation_NoDup; [symmetry; exact HP|apply seq_NoDup]). split.
  - intros i Hi. assert (Hc : In i (concat rs)) by (apply (Permutation_in _ (Permutation_sym HP)), in_seq; lia). apply in_concat in Hc. destruct Hc as (r & Hr & Hir).
    apply (In_nth _ _ []) in Hr. destruct Hr as (k & Hk & <-). exists k. split; [lia|]. split; [now apply as_in|]. intros k' _ E. apply as_in in E. now apply (concat_once rs k' k i).
  - intros k Hk. rewrite EC. intros _. rewrite Z.add_0_r.
    assert (HQ : Permutation (on_route (as_assignment rs) (gp_N p) k) (nth k rs [])).
    { apply NoDup_Permutation; [apply on_route_nodup| |].
      - assert (Hin : In (nth k rs []) rs) by (apply nth_In; lia). clear - Hn Hin. apply in_split in Hin. destruct Hin as (l1 & l2 & E). rewrite E, concat_app in Hn. cbn in Hn.
        clear E. induction (concat l1) as [|y l IH]; [|inversion Hn; auto]. cbn in Hn. induction (nth k rs []) as [|z r IHr]; [constructor|]. cbn in Hn. inversion Hn; subst. constructor; [|auto].
        intros X. apply H1. apply in_or_app. now left.
      - intros x. rewrite on_route_in, as_in. split; [tauto|]. intros Hx. split; [|exact Hx].
        assert (Hc : In x (concat rs)) by (apply in_concat; exists (nth k rs []); split; [apply nth_In; lia|exact Hx]). apply (Permutation_in _ HP), in_seq in Hc. lia. }
    unfold demand. rewrite (sum_perm _ _ _ HQ). rewrite Forall_forall in HF. apply HF, nth_In. lia.
Qed.
Lemma hard_same p q Y : gp_N p = gp_N q -> gp_K p = gp_K q -> gp_d p = gp_d q -> gp_C p = gp_C q -> hard p Y -> hard q Y.
Proof. unfold hard. intros -> -> -> ->. tauto. Qed.

(** ** The lower bound *)
Lemma ceil_le a b k : 0 < b -> a <= b * k -> ceil_div a b <= k.
Proof. intros Hb H. unfold ceil_div. assert (- k <= (- a) / b); [|lia]. apply Z.div_le_lower_bound; lia. Qed.
Lemma ceil_pos a b : 0 < b -> 0 < a -> 0 < ceil_div a b.
Proof. intros Hb Ha. unfold ceil_div. assert ((- a) / b < 0); [|lia]. apply Z.div_lt_upper_bound; lia. Qed.
Lemma packs_sum N d c rs : packs N d c rs -> demand d (seq 1 (N - 1)) <= c * Z.of_nat (length rs).
Proof.
  intros [HP HF]. unfold demand. rewrite <- (sum_perm d _ _ HP). clear HP. induction rs as [|r rs IH]; [cbn; lia|]. inversion HF; subst. cbn [concat length]. rewrite sum_app.
  specialize (IH H2). unfold demand in H1. lia.
Qed.

Section Fewest.
Variables (eps : Z) (N : nat) (D : matrix) (d : demands) (c : Z) (L : limit) (f : tsp) (edges : list Z).
Variables (seeds : nat -> nat -> option (nat -> nat -> Z)) (half_st : Z) (gurobi : nat -> gap -> bool -> gap_status).
Variables (fo ua : bool).
Hypothesis Heps : 0 <= eps.
Hypothesis Hf : solver N D f.
Hypothesis HL : is_set L = false.
Hypothesis Hc : 0 < c.
Hypothesis Hd0 : d 0%nat = 0.
Hypothesis Hd : forall i, (1 <= i < N)%nat -> 0 <= d i <= c.
Hypothesis Hsum : 0 < demand d (seq 1 (N - 1)).
Hypothesis Hseeds : forall K t, (1 <= K)%nat -> seeds K t <> None.
Hypothesis HG : gap_honest gurobi.
Hypothesis HP : gap_patient gurobi.
Notation C := (Some c).
Notation serv := (serves N D d C L eps eps).
Notation maxK := (N - 1)%nat.
Variable maxKinc : nat.
Notation turn := (gap_turn eps N D d C L f seeds half_st gurobi true fo ua false maxK maxKinc).
Notation turns := (gap_turns eps N D d C L f seeds half_st gurobi true fo ua false maxK maxKinc).
Variable m : nat.
Hypothesis Hm : (m <= maxK)%nat.
Hypothesis Hpack : exists rs, packs N d c rs /\ length rs = m.

Definition fine (found : list (list nat * Z * nat)) : Prop := exists rss, found_are D found rss /\ Forall (fun rs => serv rs /\ (length rs <= m)%nat) rss.
Definition going (st : gst) : Prop :=
  g_inc st = 0%nat /\ (1 <= g_K st <= m)%nat /\ (g_trial st < N)%nat /\ g_best st = best_of true (g_found st) /\ fine (g_found st) /\
  (g_K st = m -> (0 < g_trial st)%nat -> g_found st <> []).
Definition good_out (r : gap_out) : Prop := exists rs found, r = GapReturns (Some (encode rs)) found /\ serv rs /\ (length rs <= m)%nat.

Lemma adaptive_no : adaptive L ua = false.
Proof. unfold adaptive. now rewrite HL. Qed.
Lemma best_fine found : found <> [] -> fine found -> exists rs, sol_of (best_of true found) = Some (encode rs) /\ serv rs /\ (length rs <= m)%nat.
Proof.
  intros Hne (rss & EF & FP). pose proof (best_found true D found rss _ EF eq_refl) as B. destruct (sol_of (best_of true found)) as [sol|]; cbn in B.
  - destruct B as (rs & -> & Hin & _). rewrite Forall_forall in FP. exists rs. split; [reflexivity|now apply FP].
  - subst. now destruct Hne.
Qed.
Lemma no_best (found : list (list nat * Z * nat)) : found <> [] -> best_of true found <> None.
Proof. intros H E. pose proof (best_of_spec true found) as G. rewrite E in G. contradiction. Qed.
(** One turn *)
Lemma solve_cases t sd K tries : (1 <= K <= m)%nat -> let p := build_gap N (stacked D half_st sd) d C K L (multiplier L ua tries) in
  (exists a s rs, solve_gap (gurobi t) p = Assigned a /\ evaluate eps N d C L f a = Some s /\ s = (encode rs, routes_cost D rs, length rs) /\ serv rs /\ (length rs <= m)%nat) \/
  (solve_gap (gurobi t) p = NoAnswer /\ K <> m).
Proof.
  intros HK p. unfold solve_gap. destruct (HG t p) as [G1 _]. destruct (HP t p false) as [P1 P2].
  assert (HS : forall Y, short p Y).
  { intros Y k _. unfold p. cbn [gp_L build_gap]. unfold is_set, truthy in HL. destruct L as [l|]; [|exact I]. destruct (Z.eqb_spec l 0); [|discriminate]. subst. cbn. lia. }
  destruct (gurobi t p false) as [Y| | | |]; [left|right| | |]; try congruence; [| |destruct G1].
  - destruct G1 as (HY & _ & _). exists (to_assignments Y N K).
    assert (Ev : exists s, evaluate eps N d C L f (to_assignments Y N K) = Some s).
    { unfold evaluate. destruct (to_assignments Y N K) eqn:EA; [destruct K; [lia|discriminate]|]. rewrite <- EA.
      destruct (tours_free eps d C L f HL (to_assignments Y N K) [0%nat] 0 0%nat [0%nat]) as ([[[sol sf] sk] sv] & ->). rewrite HL. cbn. eauto. }
    destruct Ev as (s & Ev). destruct (hard_serves eps N D d C L f Heps ltac:(lia) Hf p Y s eq_refl eq_refl eq_refl HY Ev) as (rs & E & V & Hl). exists s, rs. cbn in Hl. repeat split; auto; try apply V. lia.
  - split; [unfold p; cbn [gp_L build_gap]; now rewrite HL|]. intros ->. destruct Hpack as (rs & PK & El). apply (G1 (as_assignment rs)). split; [|apply HS].
    apply packs_hard with c; [reflexivity|exact (eq_sym El)|exact PK].
Qed.
Lemma closing st sol : going st -> (forall s, sol = Some s -> exists rs, s = (encode rs, routes_cost D rs, length rs) /\ serv rs /\ (length rs <= m)%nat) ->
  (sol = None -> g_K st <> m) ->
  match close_turn N true fo maxK st sol (g_tries st) 0 true with inl st' => going st' | inr r => good_out r end.
Proof.
  intros (Hi & HK & Ht & HB & (rss & EF & FP) & Hm') Hs Hn. unfold close_turn. cbn [orb andb]. set (found' := match sol with Some s => g_found st ++ [s] | None => g_found st end).
  set (best' := match sol with Some s => best_step true (g_best st) s | None => g_best st end).
  assert (FB : best' = best_of true found') by (unfold best', found'; destruct sol as [s|]; [unfold best_of; rewrite fold_left_app; cbn [fold_left]; now rewrite HB|exact HB]).
  assert (FF : fine found').
  { unfold found'. destruct sol as [s|]; [|exists rss; auto]. destruct (Hs s eq_refl) as (rs & -> & V & Hl). exists (rss ++ [rs]). split; [unfold found_are in *; rewrite EF, map_app; reflexivity|]. apply Forall_app. auto. }
  assert (FN : g_K st = m -> found' <> []).
  { unfold found'. destruct sol as [s|]; [intros _ E; now apply app_eq_nil in E|]. intros E. now destruct (Hn eq_refl). }
  set (better := match sol with Some (_, sf, sK) => _ | None => false end).
  destruct (negb fo || (S (g_trial st) =? N)%nat) eqn:EC.
  - unfold next_K. cbn [g_best g_improved g_K g_inc g_tries g_found g_calls]. destruct best' as [b|] eqn:Eb.
    + cbn [orb]. destruct (best_fine found') as (rs & E & V & Hl); [intros E; rewrite E in FB; discriminate|exact FF|]. exists rs, found'. rewrite FB, E. auto.
    + cbn [orb]. assert (E0 : found' = []) by (destruct found' eqn:E'; [reflexivity|]; destruct (no_best found'); rewrite E'; [discriminate|congruence]).
      assert (g_K st <> m) by (intros E; now apply (FN E)). destruct (Nat.leb_spec (N - 1) (g_K st)) as [G|G]; [lia|].
      unfold going. cbn [g_K g_inc g_trial g_best g_found]. split; [reflexivity|]. split; [lia|]. split; [lia|]. split; [exact FB|]. split; [exact FF|]. lia.
  - apply orb_false_iff in EC. destruct EC as [_ EC]. apply Nat.eqb_neq in EC. unfold going. cbn [g_K g_inc g_trial g_best g_found]. split; [reflexivity|]. split; [lia|]. split; [lia|]. split; [exact FB|]. split; [exact FF|]. auto.
Qed.
Lemma attempt_next sv K inc tries : after_attempt L ua false maxKinc sv K inc tries = (tries, inc, true).
Proof. unfold after_attempt. rewrite adaptive_no, andb_false_r. reflexivity. Qed.
Lemma turn_going st : going st -> match turn st with inl st' => going st' | inr r => good_out r end.
Proof.
  intros HI. pose proof HI as (Hi & HK & Ht & _). unfold gap_turn. rewrite Hi, Nat.add_0_r. destruct (seeds (g_K st) (g_trial st)) as [sd|] eqn:Es; [|destruct (Hseeds (g_K st) (g_trial st)); [lia|exact Es]].
  destruct (solve_cases (g_calls st) sd (g_K st) (g_tries st) HK) as [(a & s & rs & E1 & E2 & E3 & V & Hl)|[E1 Hne]]; rewrite E1.
  - rewrite E2, attempt_next. apply closing; [exact HI| |discriminate]. intros s' E. injection E as <-. exists rs. auto.
  - rewrite attempt_next. apply closing; [exact HI|discriminate|auto].
Qed.
Lemma going_good : forall n st r, going st -> turns n st = inr r -> good_out r.
Proof.
  induction n as [|n IH]; intros st r HI E; [discriminate|]. cbn [gap_turns] in E. pose proof (turn_going st HI) as G. destruct (turn st) as [st'|r']; [now apply (IH st')|injection E as <-; exact G].
Qed.
End Fewest.

Lemma fewest eps N D d c L f edges seeds half_st gurobi fo ua :
  0 <= eps -> solver N D f -> ~ limit_set L -> 0 < c -> d 0%nat = 0 -> (forall i, (1 <= i < N)%nat -> 0 <= d i <= c) -> 0 < demand d (seq 1 (N - 1)) ->
  (forall K t, (1 <= K)%nat -> seeds K t <> None) -> gap_honest gurobi -> gap_patient gurobi ->
  exists rs found f0, (forall fuel, (f0 <= fuel)%nat -> gap_init eps N D d (Some c) L f edges seeds half_st gurobi None true fo ua false fuel = Some (GapReturns (Some (encode rs)) found)) /\
    serves N D d (Some c) L eps eps rs /\ forall rs', packs N d c rs' -> (length rs <= length rs')%nat.
Proof.
  intros Heps Hf HL Hc Hd0 Hd Hsum Hseeds HG HP.
  assert (HL' : is_set L = false) by (destruct (is_set L) eqn:E; [apply set_true in E; contradiction|reflexivity]).
  set (startK := Z.to_nat (ceil_div (sumZ (map d (seq 0 N))) c)).
  assert (HN : (2 <= N)%nat) by (destruct N as [|[|n]]; [cbn in Hsum; lia|cbn in Hsum; lia|lia]).
  assert (Es : sumZ (map d (seq 0 N)) = demand d (seq 1 (N - 1))).
  { destruct N as [|n]; [lia|]. cbn [seq map]. rewrite Nat.sub_succ, Nat.sub_0_r. unfold demand, sumZ. cbn [fold_right]. lia. }
  assert (Hs1 : (1 <= startK)%nat) by (unfold startK; rewrite Es; pose proof (ceil_pos _ _ Hc Hsum); lia).
  assert (Hlow : forall rs', packs N d c rs' -> (startK <= length rs')%nat).
  { intros rs' PK. unfold startK. rewrite Es. pose proof (ceil_le _ c (Z.of_nat (length rs')) Hc (packs_sum _ _ _ _ PK)). lia. }
  assert (PA : packs N d c (star_routes N)).
  { unfold star_routes. split.
    - unfold covers. clear. induction (seq 1 (N - 1)) as [|x l IH]; cbn; [constructor|now apply perm_skip].
    - apply Forall_forall. intros r Hr. apply in_map_iff in Hr. destruct Hr as (i & <- & Hi). apply in_seq in Hi. unfold demand, sumZ. cbn [map fold_right]. specialize (Hd i ltac:(lia)). lia. }
  assert (LA : length (star_routes N) = (N - 1)%nat) by (unfold star_routes; now rewrite map_length, seq_length).
  pose proof (Hlow _ PA) as HA. rewrite LA in HA.
  destruct (halts_all eps N D d (Some c) L f seeds half_st gurobi true fo ua false (N - 1) (max_K_increase startK) (fun _ => True) (gap_start startK) ltac:(lia) ltac:(cbn; lia) ltac:(cbn; lia)) as (n & r & ET).
  assert (GO : forall m, (startK <= m <= N - 1)%nat -> (exists rs, packs N d c rs /\ length rs = m) -> good_out eps N D d c L m r).
  { intros m Hm Hpk. eapply going_good; [..|exact ET]; try eassumption; [lia|].
    split; [reflexivity|]. split; [cbn; lia|]. split; [cbn; lia|]. split; [reflexivity|]. split; [exists []; split; [reflexivity|constructor]|cbn; lia]. }
  destruct (GO (N - 1)%nat ltac:(lia) ltac:(eauto)) as (rs & found & -> & V & Hl). exists rs, found, n. split; [|split; [exact V|]].
  - intros fuel Hfu. unfold gap_init, start_K. cbn [truthy]. destruct (Z.eqb_spec c 0); [lia|]. fold startK. replace (N - 1 <? startK)%nat with false by (symmetry; apply Nat.ltb_ge; lia).
    rewrite (turns_more _ _ _ _ _ _ _ _ _ _ _ _ _ _ _ _ n _ _ ET) by exact Hfu. reflexivity.
  - intros rs' PK. destruct (Nat.le_gt_cases (N - 1) (length rs')) as [G|G]; [lia|]. destruct (GO (length rs') ltac:(pose proof (Hlow _ PK); lia) ltac:(eauto)) as (rs2 & found2 & E & V2 & Hl2).
    assert (EE : encode rs = encode rs2) by congruence. apply encode_inj in EE; [now subst|eapply covers_only, V|eapply covers_only, V2].
Qed.
