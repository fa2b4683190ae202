(** * Parallel savings: results *)
From Verif Require Import Spec Spec_inter Spec_savings PyBase M_util M_psavings P_base P_cvrp P_util P_intra P_intra2 P_inter P_inter2 P_driver P_driver2 P_psavings.
From Coq Require Import ZifyBool ZifyNat Sorted.

Lemma encode_app rs rs' : encode (rs ++ rs') = encode rs ++ flat_map (fun r => r ++ [0%nat]) rs'.
Proof. unfold encode. rewrite flat_map_app. reflexivity. Qed.

Lemma routes2sol_live R : Forall (fun r => r <> []) (live R) -> Forall customers_only (live R) -> R <> [] ->
  routes2sol R = Some (encode (live R)).
Proof.
  intros H1 H2 HR. unfold routes2sol. destruct R as [|o R0] eqn:ER; [easy|]. rewrite <- ER in *. clear ER HR. f_equal.
  change [0%nat] with (encode []).
  assert (G : forall acc, fold_left routes2sol_step R (encode acc) = encode (acc ++ live R)).
  { induction R as [|w R IH]; intros acc; [cbn; now rewrite app_nil_r|]. cbn [fold_left live flat_map].
    destruct w as [r|]; cbn [o2l app] in *.
    - apply Forall_inv in H1 as N1. apply Forall_inv_tail in H1. apply Forall_inv in H2 as C1. apply Forall_inv_tail in H2.
      replace (routes2sol_step (encode acc) (Some r)) with (encode (acc ++ [r])).
      + rewrite IH by assumption. now rewrite <- app_assoc.
      + rewrite encode_app. cbn [flat_map]. rewrite app_nil_r. destruct r as [|x t]; [easy|]. cbn [routes2sol_step].
        inversion C1 as [|? ? C2 C3]; subst. destruct (Nat.eqb_spec x 0); [contradiction|].
        assert (EL : last (encode acc ++ x :: t) 0%nat <> 0%nat).
        { rewrite last_app_ne by discriminate. unfold customers_only in C1. rewrite Forall_forall in C1. apply C1. now apply last_in. }
        apply Nat.eqb_neq in EL. rewrite EL. now rewrite <- app_assoc.
    - change (routes2sol_step (encode acc) None) with (encode acc). now rewrite IH. }
  rewrite G. reflexivity.
Qed.

Section Results.
Variables (ceps seps : Z) (N : nat) (D : matrix) (d : demands) (C L : limit) (mk : bool) (savings : list saving).
Hypotheses (HN : (2 <= N)%nat) (Hsym : symmetric D) (Halone : served_alone N D d C L ceps seps) (HV : valid_pairs N savings).

Lemma init_live : live (ps_routes (ps_init N D d C L)) = map (fun i => [i]) (seq 1 (N - 1)).
Proof.
  cbn. unfold range. clear. generalize 1%nat at 1 3. generalize (N - 1)%nat. intros n. induction n as [|n IH]; intros s; [reflexivity|].
  cbn. f_equal. apply IH.
Qed.

Lemma init_good : goodl ceps seps N D d C L mk (live (ps_routes (ps_init N D d C L))).
Proof.
  rewrite init_live. split; [|split; [|split]].
  - unfold covers. assert (E : forall n s, concat (map (fun i => [i]) (seq s n)) = seq s n).
    { induction n as [|n IH]; intros s; [reflexivity|]. cbn. f_equal. apply IH. }
    now rewrite E.
  - apply Forall_forall. intros r Hr. apply in_map_iff in Hr. destruct Hr as (i & <- & _). discriminate.
  - apply Forall_forall. intros r Hr. apply in_map_iff in Hr. destruct Hr as (i & <- & Hi). apply in_seq in Hi. apply Halone. lia.
  - intros _. unfold star_cost. lia.
Qed.

Lemma goodl_sol R : goodl ceps seps N D d C L mk (live R) -> routes2sol R = Some (encode (live R)).
Proof.
  intros (H1 & H2 & _). apply routes2sol_live; [exact H2|now apply (covers_customers N)|].
  intros ->. unfold covers in H1. cbn in H1. apply Permutation_length in H1. rewrite seq_length in H1. cbn in H1. lia.
Qed.

Lemma parallel_result : exists rs,
  parallel_savings_init ceps seps N D d C L mk savings = Some (Some (encode rs)) /\ covers N rs /\
  Forall (fun r => r <> []) rs /\ Forall (feasible D d C L ceps seps) rs /\
  (mk = false -> routes_cost D rs <= routes_cost D (map (fun i => [i]) (seq 1 (N - 1)))).
Proof.
  destruct (loop_ok ceps seps N D d C L mk Hsym savings HV (ps_init N D d C L)) as (pts & E & _ & HG & _ & _).
  { apply pinv_init; lia. } { exact init_good. }
  exists (live (ps_routes (last_state pts (ps_init N D d C L)))). unfold parallel_savings_init, ps_points. rewrite E.
  change ((At_start, ps_init N D d C L) :: pts) with ([(At_start, ps_init N D d C L)] ++ pts).
  rewrite last_state_app. change (last_state [(At_start, ps_init N D d C L)] (ps_init N D d C L)) with (ps_init N D d C L).
  rewrite (goodl_sol _ HG). split; [reflexivity|]. exact HG.
Qed.

Lemma interrupted_ok : exists pts, ps_points ceps seps N D d C L mk savings = Some pts /\
  forall p, In p pts ->
    (fst p <> Extended -> exists rs, interrupted_sol p = Some (encode rs) /\ covers N rs /\ Forall (fun r => r <> []) rs /\
       Forall (feasible D d C L ceps seps) rs /\
       (mk = false -> routes_cost D rs <= routes_cost D (map (fun i => [i]) (seq 1 (N - 1))))) /\
    (exists rs, interrupted_sol p = Some (encode rs) /\ (forall c, (1 <= c < N)%nat -> In c (concat rs)) /\
       Forall (feasible D d C L ceps seps) rs).
Proof.
  destruct (loop_ok ceps seps N D d C L mk Hsym savings HV (ps_init N D d C L)) as (pts & E & _ & _ & HP & _).
  { apply pinv_init; lia. } { exact init_good. }
  exists ((At_start, ps_init N D d C L) :: pts). unfold ps_points. rewrite E. split; [reflexivity|].
  assert (HA : Forall (point_ok ceps seps N D d C L mk) ((At_start, ps_init N D d C L) :: pts)).
  { constructor; [exact init_good|exact HP]. }
  intros p Hp. rewrite Forall_forall in HA. specialize (HA p Hp). destruct p as [pt st]. unfold point_ok in HA. cbn [fst snd] in *.
  unfold interrupted_sol. cbn [snd].
  assert (G : goodl ceps seps N D d C L mk (live (ps_routes st)) ->
    (pt <> Extended -> exists rs, routes2sol (ps_routes st) = Some (encode rs) /\ covers N rs /\ Forall (fun r => r <> []) rs /\
       Forall (feasible D d C L ceps seps) rs /\ (mk = false -> routes_cost D rs <= routes_cost D (map (fun i => [i]) (seq 1 (N - 1))))) /\
    (exists rs, routes2sol (ps_routes st) = Some (encode rs) /\ (forall c, (1 <= c < N)%nat -> In c (concat rs)) /\
       Forall (feasible D d C L ceps seps) rs)).
  { intros HG. rewrite (goodl_sol _ HG). split.
    - intros _. exists (live (ps_routes st)). split; [reflexivity|exact HG].
    - exists (live (ps_routes st)). split; [reflexivity|]. destruct HG as (H1 & _ & H3 & _). split; [|exact H3].
      intros c Hc. apply (Permutation_in _ (Permutation_sym H1)). apply in_seq. lia. }
  destruct pt; try (now apply G). clear G. destruct HA as (H1 & H2 & H3 & H4). split; [congruence|].
  exists (live (ps_routes st)). rewrite routes2sol_live; [now split| | |]; try assumption.
  intros E0. rewrite E0 in H1. apply (H1 1%nat). lia.
Qed.

(** ** No feasible improving merge is left *)

Lemma rev_ends (a b : list nat) i j r1 r2 q : joined r1 r2 i j q -> joined r2 r1 j i (rev q).
Proof.
  intros (u & v & S1 & S2 & N1 & N2 & L1 & L2 & ->). exists (rev v), (rev u).
  split; [apply (same_dir_trans' _ v); [exact S2|now right]|]. split; [apply (same_dir_trans' _ u); [exact S1|now right]|].
  split; [now apply rev_ne|]. split; [now apply rev_ne|]. split; [now rewrite last_rev'|]. split; [now rewrite hd_rev'|].
  now rewrite rev_app_distr.
Qed.

Lemma parallel_maximal : triangle D -> (forall n, 0 <= d n) -> complete_list N savings -> (mk = false -> losing_last D savings) ->
  exists rs, parallel_savings_init ceps seps N D d C L mk savings = Some (Some (encode rs)) /\
    forall r1 r2 rest i j q, Permutation rs (r1 :: r2 :: rest) -> joined r1 r2 i j q ->
      ~ feasible D d C L ceps seps q \/ (mk = false /\ D i 0%nat + D 0%nat j < D i j).
Proof.
  intros HT Hd HCL HLL.
  destruct (loop_ok ceps seps N D d C L mk Hsym savings HV (ps_init N D d C L)) as (pts & E & HI & HG & _ & HM).
  { apply pinv_init; lia. } { exact init_good. }
  destruct (HM HT Hd) as (_ & done & rest0 & ES & HB & HR).
  set (st := last_state pts (ps_init N D d C L)) in *.
  exists (live (ps_routes st)). split.
  { unfold parallel_savings_init, ps_points. rewrite E.
    change ((At_start, ps_init N D d C L) :: pts) with ([(At_start, ps_init N D d C L)] ++ pts).
    rewrite last_state_app. change (last_state [(At_start, ps_init N D d C L)] (ps_init N D d C L)) with (ps_init N D d C L).
    fold st. now rewrite (goodl_sol _ HG). }
  (* pairs in the order of the list *)
  assert (K : forall k1 k2 r1 r2 i j q, (i < j)%nat -> k1 <> k2 -> nth_error (ps_routes st) k1 = Some (Some r1) ->
     nth_error (ps_routes st) k2 = Some (Some r2) -> joined r1 r2 i j q ->
     ~ feasible D d C L ceps seps q \/ (mk = false /\ D i 0%nat + D 0%nat j < D i j)).
  { intros k1 k2 r1 r2 i j q Hij Hk H1 H2 HJ.
    assert (Hin : forall k r x, nth_error (ps_routes st) k = Some (Some r) -> In x r -> (1 <= x < N)%nat).
    { intros k r x Hkr Hx. assert (In x (concat (live (ps_routes st)))) as Hc.
      { apply in_concat. exists r. split; [|exact Hx]. apply in_live. now apply nth_error_In in Hkr. }
      apply (Permutation_in _ (proj1 HG)) in Hc. apply in_seq in Hc. lia. }
    assert (Hi : (1 <= i < N)%nat /\ (1 <= j < N)%nat).
    { destruct HJ as (u & v & S1 & S2 & N1 & N2 & L1 & L2 & _). split.
      - apply (Hin k1 r1); [exact H1|]. apply (Permutation_in _ (same_dir_perm _ _ S1)). rewrite <- L1. now apply last_in.
      - apply (Hin k2 r2); [exact H2|]. apply (Permutation_in _ (same_dir_perm _ _ S2)). rewrite <- L2. now apply hd_in. }
    destruct (HCL i j) as (s & x & Hs); [lia|lia|]. rewrite ES in Hs. apply in_app_or in Hs. destruct Hs as [Hs|Hs].
    - left. exact (HB s x i j Hs k1 k2 r1 r2 q Hk H1 H2 HJ).
    - right. destruct HR as [->|(s0 & x0 & i0 & j0 & rest' & -> & Hmk & Hneg)]; [contradiction|]. split; [exact Hmk|].
      destruct Hs as [Es|Hs]; [injection Es as <- <- <- <-; exact Hneg|].
      exact (HLL Hmk done s0 x0 i0 j0 rest' ES Hneg s x i j Hs). }
  intros r1 r2 rest i j q HP HJ.
  assert (KK : exists k1 k2, k1 <> k2 /\ nth_error (ps_routes st) k1 = Some (Some r1) /\ nth_error (ps_routes st) k2 = Some (Some r2)).
  { assert (ND : NoDup (concat (live (ps_routes st)))) by now apply (pinv_nodup N D d C L).
    assert (I1 : In r1 (live (ps_routes st))) by (apply (Permutation_in _ (Permutation_sym HP)); now left).
    assert (I2 : In r2 (live (ps_routes st))) by (apply (Permutation_in _ (Permutation_sym HP)); right; now left).
    apply in_live in I1, I2. apply In_nth_error in I1, I2. destruct I1 as [k1 I1]. destruct I2 as [k2 I2].
    exists k1, k2. split; [|now split]. intros ->. rewrite I1 in I2. injection I2 as <-.
    apply concat_perm in HP. apply (Permutation_NoDup HP) in ND. cbn [concat] in ND.
    destruct HJ as (u & v & S1 & S2 & N1 & N2 & L1 & L2 & _). apply (NoDup_app_in _ _ (last u 0%nat) ND).
    - apply (Permutation_in _ (same_dir_perm _ _ S1)). now apply last_in.
    - apply in_or_app. left. apply (Permutation_in _ (same_dir_perm _ _ S1)). now apply last_in. }
  destruct KK as (k1 & k2 & Hk & H1 & H2).
  destruct (Nat.lt_trichotomy i j) as [Hij|[->|Hij]].
  - now apply (K k1 k2 r1 r2 i j q).
  - exfalso. destruct (joined_idx N D d C L st k1 k2 r1 r2 j j q HI H1 H2 HJ) as [J1 J2]. congruence.
  - destruct (K k2 k1 r2 r1 j i (rev q)) as [HF|[Hmk Hn]]; auto; [now apply (rev_ends [] [])| |].
    + left. intros HF'. apply HF. now apply (feasible_dir ceps seps D d C L Hsym q); [right|].
    + right. split; [exact Hmk|]. pose proof (Hsym i 0%nat). pose proof (Hsym 0%nat j). pose proof (Hsym i j). lia.
Qed.
End Results.

(** ** The Clarke and Wright list *)
Definition sav_ge (a b : saving) : Prop := saving_leb b a = true.
Lemma saving_leb_total a b : saving_leb a b = true \/ saving_leb b a = true.
Proof.
  destruct a as [[[s1 x1] i1] j1], b as [[[s2 x2] i2] j2]. unfold saving_leb.
  destruct (Z.eqb_spec s1 s2), (Z.eqb_spec s2 s1); cbn [negb]; try lia.
  destruct (Z.eqb_spec x1 x2), (Z.eqb_spec x2 x1); cbn [negb]; try lia.
  destruct (Nat.eqb_spec i1 i2), (Nat.eqb_spec i2 i1); cbn [negb]; try lia.
Qed.
Lemma saving_leb_trans a b c : saving_leb a b = true -> saving_leb b c = true -> saving_leb a c = true.
Proof.
  destruct a as [[[s1 x1] i1] j1], b as [[[s2 x2] i2] j2], c as [[[s3 x3] i3] j3]. unfold saving_leb.
  destruct (Z.eqb_spec s1 s2), (Z.eqb_spec s2 s3), (Z.eqb_spec s1 s3); cbn [negb]; try lia.
  destruct (Z.eqb_spec x1 x2), (Z.eqb_spec x2 x3), (Z.eqb_spec x1 x3); cbn [negb]; try lia.
  destruct (Nat.eqb_spec i1 i2), (Nat.eqb_spec i2 i3), (Nat.eqb_spec i1 i3); cbn [negb]; try lia.
Qed.
Lemma sort_insert_perm x l : Permutation (sort_insert x l) (x :: l).
Proof. induction l as [|y l IH]; [reflexivity|]. cbn. destruct (saving_leb y x); [reflexivity|]. rewrite IH. apply perm_swap. Qed.
Lemma sort_reverse_perm l : Permutation (sort_reverse l) l.
Proof. induction l as [|x l IH]; [reflexivity|]. cbn. rewrite sort_insert_perm. now constructor. Qed.
Lemma sort_insert_sorted x l : StronglySorted sav_ge l -> StronglySorted sav_ge (sort_insert x l).
Proof.
  induction 1 as [|y l HS IH HF]; cbn; [repeat constructor|]. destruct (saving_leb y x) eqn:E.
  - constructor; [now constructor|]. constructor; [exact E|]. rewrite Forall_forall in *. intros z Hz. unfold sav_ge in *.
    apply (saving_leb_trans _ y); auto.
  - constructor; [exact IH|]. rewrite sort_insert_perm. constructor; [|exact HF].
    unfold sav_ge. destruct (saving_leb_total x y); congruence.
Qed.
Lemma sort_reverse_sorted l : StronglySorted sav_ge (sort_reverse l).
Proof. induction l as [|x l IH]; [constructor|]. cbn. now apply sort_insert_sorted. Qed.

Lemma in_clarke_wright N D s x i j : In (s, x, i, j) (clarke_wright_savings N D) <->
  (1 <= i < j)%nat /\ (j < N)%nat /\ s = D i 0%nat + D 0%nat j - D i j /\ x = - D i j.
Proof.
  unfold clarke_wright_savings. 
  assert (P := sort_reverse_perm (flat_map (fun i => map (fun j => (D i 0%nat + D 0%nat j - D i j, - D i j, i, j)) (range (i + 1) N)) (range 1 N))).
  split.
  - intros H. apply (Permutation_in _ P) in H. apply in_flat_map in H. destruct H as (i' & Hi & H). apply in_map_iff in H.
    destruct H as (j' & E & Hj). injection E as <- <- <- <-. unfold range in *. apply in_seq in Hi, Hj. lia.
  - intros (H1 & H2 & -> & ->). apply (Permutation_in _ (Permutation_sym P)). apply in_flat_map. exists i. split.
    + apply in_seq. lia.
    + apply in_map_iff. exists j. split; [reflexivity|]. apply in_seq. lia.
Qed.

Lemma clarke_wright_valid N D : valid_pairs N (clarke_wright_savings N D).
Proof. intros s x i j H. apply in_clarke_wright in H. lia. Qed.
Lemma clarke_wright_complete N D : complete_list N (clarke_wright_savings N D).
Proof. intros i j H1 H2. do 2 eexists. apply in_clarke_wright. repeat split; eauto; lia. Qed.
Lemma clarke_wright_losing_last N D : losing_last D (clarke_wright_savings N D).
Proof.
  intros l1 s x i j l2 E Hn s' x' i' j' Hin.
  assert (H1 : In (s, x, i, j) (clarke_wright_savings N D)) by (rewrite E; apply in_or_app; right; now left).
  assert (H2 : In (s', x', i', j') (clarke_wright_savings N D)) by (rewrite E; apply in_or_app; right; now right).
  apply in_clarke_wright in H1, H2.
  assert (HS : StronglySorted sav_ge (clarke_wright_savings N D)) by apply sort_reverse_sorted.
  rewrite E in HS. clear E. induction l1 as [|y l1 IH]; cbn in HS.
  - inversion HS as [|? ? _ HF]; subst. rewrite Forall_forall in HF. specialize (HF _ Hin). unfold sav_ge, saving_leb in HF.
    destruct (Z.eqb_spec s' s); cbn [negb] in HF; lia.
  - inversion HS. auto.
Qed.

Lemma clarke_wright_maximal ceps seps N D d C L mk : (2 <= N)%nat -> symmetric D -> served_alone N D d C L ceps seps ->
  triangle D -> (forall n, 0 <= d n) ->
  exists rs, parallel_savings_init ceps seps N D d C L mk (clarke_wright_savings N D) = Some (Some (encode rs)) /\
    forall r1 r2 rest i j q, Permutation rs (r1 :: r2 :: rest) -> joined r1 r2 i j q ->
      ~ feasible D d C L ceps seps q \/ (mk = false /\ D i 0%nat + D 0%nat j < D i j).
Proof.
  intros HN Hs Ha HT Hd. apply parallel_maximal; try assumption.
  - apply clarke_wright_valid.
  - apply clarke_wright_complete.
  - intros _. apply clarke_wright_losing_last.
Qed.
