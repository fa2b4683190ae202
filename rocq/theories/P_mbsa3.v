(** * Matching based savings: the result and when there is one *)
From Verif Require Import Spec Spec_inter Spec_savings Spec_rfcs Spec_mbsa PyBase M_mbsa P_base P_mbsa P_mbsa2.
Require Import Sorting.Sorted ZifyBool ZifyNat Lia.
Notation asc := (StronglySorted lt).

Section Loop.
Variables (ceps seps : Z) (N : nat) (D : matrix) (d : demands) (C L : limit) (minimize_K : bool) (W : Z)
          (f : tsp) (second : bool) (mm : savings -> nat -> mip).
Hypothesis Hd0 : d 0%nat = 0.
Hypothesis HN : (2 <= N)%nat.
Hypothesis Hsol : solver N D f.
Hypothesis Halone : served_alone N D d C L ceps seps.
Hypothesis Hmm : forall sv n x, mm sv n = MipOptimal x -> optimal sv x.

Let calc := calc_savings ceps seps d C L f W.
Let value := wt ceps seps d C L f W.
Let inv := Inv ceps seps N d C L W f.
Let decide := mb_decide W minimize_K second mm.
Let loop := mb_loop ceps seps D d C L minimize_K W f second mm.
Definition answers_always : Prop := forall sv n, exists x, mm sv n = MipOptimal x.

Lemma decide_join st i j : decide st = DJoin i j ->
  exists w, In (w, (i, j)) (mb_sav st) /\ w <> W /\ (forall e, In e (mb_sav st) -> fst e <= w) /\ (minimize_K = false -> 0 <= w).
Proof using All.
  unfold decide, mb_decide. destruct (mb_sav st) as [|e sv] eqn:E; [discriminate|].
  destruct (negb _); [discriminate|].
  destruct (mmp_solve mm second (e :: sv) (length (mb_sets st))) as [w a b| | | |] eqn:Em; try discriminate.
  destruct (Z.eqb_spec w W); [discriminate|]. destruct (negb minimize_K && (w <? 0)) eqn:E2; [discriminate|]. intros [= -> ->].
  destruct (mmp_best _ _ _ _ _ _ _ Hmm Em) as [H1 H2]. exists w. split; [assumption|]. split; [assumption|]. split; [assumption|].
  intros ->. simpl in E2. lia.
Qed.
Lemma decide_continue st : decide st = DContinue ->
  minimize_K = false /\ exists w i j, In (w, (i, j)) (mb_sav st) /\ w <> W /\ w < 0.
Proof using All.
  unfold decide, mb_decide. destruct (mb_sav st) as [|e sv] eqn:E; [discriminate|].
  destruct (negb _); [discriminate|].
  destruct (mmp_solve mm second (e :: sv) (length (mb_sets st))) as [w a b| | | |] eqn:Em; try discriminate.
  destruct (Z.eqb_spec w W); [discriminate|]. destruct (negb minimize_K && (w <? 0)) eqn:E2; [|discriminate]. intros _.
  destruct (mmp_best _ _ _ _ _ _ _ Hmm Em) as [H1 H2]. split; [destruct minimize_K; [discriminate|reflexivity]|].
  exists w, a, b. split; [assumption|]. split; [assumption|]. lia.
Qed.
Lemma decide_break st : answers_always -> decide st = DBreak -> forall e, In e (mb_sav st) -> fst e <= Z.max 0 W.
Proof using All.
  intros Hall. unfold decide, mb_decide. destruct (mb_sav st) as [|e sv] eqn:E; [discriminate|].
  destruct (negb (existsb (fun e0 : Z * (nat * nat) => negb (fst e0 =? W) && negb (fst e0 =? 0)) (e :: sv))) eqn:E1.
  - intros _ e' He'. apply negb_true_iff in E1. destruct (Z.leb_spec (fst e') (Z.max 0 W)); [assumption|]. exfalso.
    assert (X : existsb (fun e0 : Z * (nat * nat) => negb (fst e0 =? W) && negb (fst e0 =? 0)) (e :: sv) = true) by (apply existsb_exists; exists e'; split; [assumption|lia]).
    congruence.
  - destruct (Hall (e :: sv) (length (mb_sets st))) as [x Ex].
    destruct (mmp_solve mm second (e :: sv) (length (mb_sets st))) as [w a b| | | |] eqn:Em; try discriminate.
    + destruct (Z.eqb_spec w W) as [->|]; [|destruct (negb minimize_K && (w <? 0)); discriminate].
      intros _ e' He'. destruct (mmp_best _ _ _ _ _ _ _ Hmm Em) as [H1 H2]. specialize (H2 _ He'). lia.
    + unfold mmp_solve in Em. rewrite Ex in Em. destruct (chosen _ _); [discriminate|]. destruct (tuple_max _ _) as [[? ?] [? ?]]. discriminate.
Qed.

Lemma decide_best st i j : inv st -> decide st = DJoin i j ->
  best_join d C L ceps seps f (mb_sets st) (mb_sets (mb_join calc i j st)) /\
  (minimize_K = false -> sumZ (map (fun s => snd (f (0%nat :: s))) (mb_sets (mb_join calc i j st))) <= sumZ (map (fun s => snd (f (0%nat :: s))) (mb_sets st))).
Proof using All.
  intros HI Hd. destruct (decide_join st i j Hd) as (w & Hin & HW & Hmax & Hpos). destruct HI as [I1 I2 I3 I4 I5].
  destruct (I4 _ _ _ Hin) as (Hne & Hi & Hj & Ew & _).
  set (sets := mb_sets st) in *.
  assert (Es : mb_sets (mb_join calc i j st) = mb_joined i j sets) by (unfold mb_join; fold sets; destruct (price _ _ _); reflexivity). rewrite Es.
  pose proof (mb_joined_perm i j sets Hne Hi Hj) as HP. pose proof (pair_perm [] sets i j Hne Hi Hj) as HQ.
  change (Permutation sets (set_at sets i :: set_at sets j :: del_nth (phi j i) (del_nth j sets))) in HQ.
  assert (HW' : wt ceps seps d C L f W (set_at sets i) (set_at sets j) <> W) by congruence.
  destruct (value_fits ceps seps N d C L W f Hd0 sets i j I1 Hne Hi Hj HW') as [HF HV].
  rewrite HV in Ew. split.
  - exists (set_at sets i), (set_at sets j), (del_nth (phi j i) (del_nth j sets)), (union (set_at sets i) (set_at sets j)).
    split; [exact HQ|]. split; [apply (union_joined _ _ (set_at_asc N sets j I1) (pair_nodup N sets i j I1 Hne Hi Hj))|]. split; [exact HP|]. split; [exact HF|].
    intros g2 h2 rest2 u2 P2 J2 F2. destruct (perm_pair [] sets g2 h2 rest2 P2) as (a & b & N2 & Ha & Hb & <- & <-).
    change (gain f (set_at sets a) (set_at sets b) u2 <= gain f (set_at sets i) (set_at sets j) (union (set_at sets i) (set_at sets j))).
    rewrite <- (fits_value ceps seps N d C L W f Hd0 sets a b u2 I1 N2 Ha Hb J2 F2). rewrite <- Ew.
    destruct (I5 a b Ha Hb N2) as [X|X]; apply Hmax in X; exact X.
  - intros Hk. specialize (Hpos Hk). rewrite (sumZ_perm _ _ (Permutation_map _ HP)), (sumZ_perm _ _ (Permutation_map _ HQ)). simpl.
    unfold gain in Ew. lia.
Qed.

Definition no_gain_left (sets : list nodeset) : Prop :=
  forall g h rest u, Permutation sets (g :: h :: rest) -> joined g h u -> fits d C L ceps seps f g h u -> gain f g h u <= Z.max 0 W.

Lemma loop_result : forall fuel st sol, inv st -> loop fuel st = Some (MbReturn sol) ->
  exists gs, best_joins d C L ceps seps f (mb_sets st) gs /\ sets_ok N gs /\ Forall (set_fits ceps seps d C L f) gs /\
    sol = 0%nat :: flat_map (fun s => tl (fst (f (0%nat :: s)))) gs /\
    (minimize_K = false -> sumZ (map (fun s => snd (f (0%nat :: s))) gs) <= sumZ (map (fun s => snd (f (0%nat :: s))) (mb_sets st))) /\
    (answers_always -> no_gain_left gs).
Proof using All.
  induction fuel as [|fuel IH]; intros st sol HI; simpl; [discriminate|].
  change (mb_decide W minimize_K second mm st) with (decide st).
  destruct (decide st) as [| | | | |i j] eqn:Ed; try discriminate.
  - intros [= <-]. exists (mb_sets st). pose proof HI as [I1 I2 I3 I4 I5]. split; [constructor|]. split; [assumption|]. split; [assumption|]. split.
    + unfold mb_finish. f_equal. apply flat_map_ext. intros s. destruct (get_tsp_ok f (mb_cache st) s I3) as (A1 & _). now rewrite A1.
    + split; [lia|]. intros Ha g h rest u HP HJ HF. destruct (perm_pair [] _ g h rest HP) as (a & b & N2 & Xa & Xb & <- & <-).
      change (gain f (set_at (mb_sets st) a) (set_at (mb_sets st) b) u <= Z.max 0 W).
      rewrite <- (fits_value ceps seps N d C L W f Hd0 _ a b u I1 N2 Xa Xb HJ HF).
      destruct (I5 a b Xa Xb N2) as [X|X]; apply (decide_break st Ha Ed) in X; exact X.
  - apply IH. assumption.
  - intros H. destruct (decide_join st i j Ed) as (w & Hin & HW & _). destruct (decide_best st i j HI Ed) as [B1 B2].
    assert (HI' : inv (mb_join calc i j st)) by (now apply (join_inv ceps seps N d C L W f Hd0 i j w st)).
    destruct (IH _ _ HI' H) as (gs & G1 & G2 & G3 & G4 & G5 & G6). exists gs. split; [econstructor; eassumption|]. do 3 (split; [assumption|]). split; [|assumption].
    intros Hk. specialize (B2 Hk). specialize (G5 Hk). lia.
Qed.

Lemma tours_of gs : sets_ok N gs -> exists rs, toured f gs rs /\ Permutation (concat rs) (concat gs) /\ Forall (fun r => r <> []) rs /\
  (Forall (set_fits ceps seps d C L f) gs -> Forall (feasible D d C L ceps seps) rs) /\
  routes_cost D rs = sumZ (map (fun s => snd (f (0%nat :: s))) gs) /\
  flat_map (fun s => tl (fst (f (0%nat :: s)))) gs = flat_map (fun r => r ++ [0%nat]) rs.
Proof using All.
  intros Hok. assert (Hall : forall s, In s gs -> s <> [] /\ exists r, f (0%nat :: s) = (wrap r, route_cost D r) /\ Permutation r s).
  { intros s Hs. split; [|now apply (solver_tour N D f Hsol gs s)]. destruct Hok as (_ & _ & H). rewrite Forall_forall in H. now apply H. }
  clear Hok. induction gs as [|s gs IH]; [exists []; repeat split; try constructor|].
  destruct IH as (rs & A1 & A2 & A3 & A4 & A5 & A6); [intros; apply Hall; now right|].
  destruct (Hall s (or_introl eq_refl)) as (Hne & r & Er & Pr). exists (r :: rs).
  split; [constructor; [now rewrite Er|assumption]|]. split; [simpl; now apply Permutation_app|]. split; [|split; [|split]].
  - constructor; [|assumption]. intros ->. apply Permutation_nil in Pr. congruence.
  - intros H. inversion H as [|? ? H1 H2]; subst. constructor; [|now apply A4]. destruct H1 as [H1 H1']. rewrite Er in H1'. split; [|exact H1'].
    now rewrite (demand_perm' d _ _ Pr).
  - unfold routes_cost in *. simpl. rewrite A5, Er. reflexivity.
  - simpl. rewrite A6, Er. reflexivity.
Qed.

Lemma star_cost : sumZ (map (fun s => snd (f (0%nat :: s))) (mb_sets0 N)) = routes_cost D (star_routes N).
Proof using All.
  unfold routes_cost, star_routes, mb_sets0, range. rewrite !map_map. apply f_equal. apply map_ext_in. intros i Hi. apply in_seq in Hi.
  destruct (Hsol [i]) as (r & E & P); [discriminate|repeat constructor; intros []|intros j [<-|[]]; lia|].
  apply Permutation_sym, Permutation_length_1_inv in P. subst r. now rewrite E.
Qed.

Lemma start_sets : mb_sets (mb_start ceps seps N d C L W f) = mb_sets0 N.
Proof. unfold mb_start. destruct (price _ _ _). reflexivity. Qed.

Theorem mbsa_result fuel sol : mbsa_init ceps seps N D d C L minimize_K W f second mm fuel = Some (MbReturn sol) ->
  exists gs rs, sol = encode rs /\ serves N D d C L ceps seps rs /\ toured f gs rs /\
    best_joins d C L ceps seps f (star_routes N) gs /\
    (minimize_K = false -> routes_cost D rs <= routes_cost D (star_routes N)) /\
    (answers_always -> no_gain_left gs).
Proof using All.
  intros H. pose proof (start_inv ceps seps N D d C L W f HN Hsol Halone) as HI.
  destruct (loop_result fuel _ sol HI H) as (gs & G1 & G2 & G3 & G4 & G5 & G6).
  destruct (tours_of gs G2) as (rs & A1 & A2 & A3 & A4 & A5 & A6). exists gs, rs. rewrite start_sets in *.
  split; [rewrite G4, A6; reflexivity|]. split; [split; [|split; [assumption|now apply A4]]|].
  - unfold covers. rewrite A2. apply G2.
  - split; [assumption|]. split; [exact G1|]. split; [|assumption]. intros Hk. rewrite A5, <- star_cost. now apply G5.
Qed.

(** ** When it ends *)
Lemma join_shorter st i j : inv st -> decide st = DJoin i j -> length (mb_sets (mb_join calc i j st)) = (length (mb_sets st) - 1)%nat /\ (2 <= length (mb_sets st))%nat.
Proof using All.
  intros HI Hd. destruct (decide_join st i j Hd) as (w & Hin & _). destruct (inv_keys _ _ _ _ _ _ _ _ _ HI _ _ _ Hin) as (Hne & Hi & Hj & _).
  split; [|lia]. unfold mb_join. destruct (price _ _ _). simpl. now apply mb_joined_length.
Qed.
Lemma no_continue st : inv st -> (minimize_K = true \/ joins_never_cost N f) -> decide st <> DContinue.
Proof using All.
  intros HI Hcase Hd. destruct (decide_continue st Hd) as (Hk & w & i & j & Hin & HW & Hneg). destruct Hcase as [Hc|Hc]; [congruence|].
  pose proof HI as [I1 I2 I3 I4 I5]. destruct (I4 _ _ _ Hin) as (Hne & Hi & Hj & Ew & _).
  assert (HW' : wt ceps seps d C L f W (set_at (mb_sets st) i) (set_at (mb_sets st) j) <> W) by congruence.
  destruct (value_fits ceps seps N d C L W f Hd0 _ i j I1 Hne Hi Hj HW') as [HF HV]. rewrite HV in Ew.
  destruct (set_customers N _ i I1 Hi) as (A1 & _ & A3). destruct (set_customers N _ j I1 Hj) as (B1 & _ & B3).
  pose proof (Hc _ _ _ A1 B1 (union_joined _ _ (set_at_asc N _ j I1) (pair_nodup N _ i j I1 Hne Hi Hj))) as X.
  assert (Y : forall x, In x (union (set_at (mb_sets st) i) (set_at (mb_sets st) j)) -> (1 <= x < N)%nat) by (intros x Hx; apply in_union in Hx; destruct Hx; auto).
  specialize (X Y). lia.
Qed.
Lemma loop_ends : (minimize_K = true \/ joins_never_cost N f) ->
  forall n st, (length (mb_sets st) <= n)%nat -> inv st -> exists out, forall fuel, (n < fuel)%nat -> loop fuel st = Some out.
Proof using All.
  intros Hcase. induction n as [|n IH]; intros st Hlen HI.
  - destruct (decide st) as [| | | | |i j] eqn:Ed;
      try (eexists; intros [|fuel] Hf; [lia|]; simpl; change (mb_decide W minimize_K second mm st) with (decide st); rewrite Ed; reflexivity).
    + exfalso. now apply (no_continue st HI Hcase).
    + destruct (join_shorter st i j HI Ed). lia.
  - destruct (decide st) as [| | | | |i j] eqn:Ed;
      try (eexists; intros [|fuel] Hf; [lia|]; simpl; change (mb_decide W minimize_K second mm st) with (decide st); rewrite Ed; reflexivity).
    + exfalso. now apply (no_continue st HI Hcase).
    + destruct (join_shorter st i j HI Ed) as [S1 S2]. destruct (decide_join st i j Ed) as (w & Hin & HW & _).
      assert (HI' : inv (mb_join calc i j st)) by (now apply (join_inv ceps seps N d C L W f Hd0 i j w st)).
      destruct (IH (mb_join calc i j st)) as [out Ho]; [lia|assumption|]. exists out. intros [|fuel] Hf; [lia|]. simpl.
      change (mb_decide W minimize_K second mm st) with (decide st). rewrite Ed. apply Ho. lia.
Qed.
Theorem mbsa_ends : minimize_K = true \/ joins_never_cost N f ->
  exists out, forall fuel, (N <= fuel)%nat -> mbsa_init ceps seps N D d C L minimize_K W f second mm fuel = Some out.
Proof using All.
  intros Hcase. pose proof (start_inv ceps seps N D d C L W f HN Hsol Halone) as HI.
  destruct (loop_ends Hcase (N - 1) _ ltac:(rewrite start_sets; unfold mb_sets0, range; rewrite map_length, seq_length; lia) HI) as [out Ho].
  exists out. intros fuel Hf. apply Ho. lia.
Qed.

(** A solution is returned unless one route is left. *)
Lemma loop_returns : (minimize_K = true \/ joins_never_cost N f) -> answers_always -> ~ within C ceps (demand d (seq 1 (N - 1))) ->
  forall n st fuel, (length (mb_sets st) <= n)%nat -> inv st -> (n < fuel)%nat -> exists sol, loop fuel st = Some (MbReturn sol).
Proof using All.
  intros Hcase Hall Hbig. induction n as [|n IH]; intros st [|fuel] Hlen HI Hf; try lia.
  - pose proof HI as [I1 I2 I3 I4 I5]. destruct I1 as (P & _). destruct (mb_sets st); [|simpl in Hlen; lia]. exfalso. apply Hbig.
    simpl in P. apply Permutation_nil in P. rewrite P. unfold within. destruct C; [|exact I]. simpl. intros _. specialize (Halone 1%nat ltac:(lia)).
    destruct (N - 1)%nat eqn:X; [lia|simpl in P; discriminate].
  - simpl. change (mb_decide W minimize_K second mm st) with (decide st). destruct (decide st) as [| | | | |i j] eqn:Ed.
    + exfalso. unfold decide, mb_decide in Ed. destruct (mb_sav st) as [|e sv] eqn:E.
      * pose proof HI as [I1 I2 I3 I4 I5]. destruct (mb_sets st) as [|s [|s2 r]] eqn:Es.
        -- destruct I1 as (P & _). simpl in P. apply Permutation_nil in P. destruct (N - 1)%nat eqn:X; [lia|simpl in P; discriminate].
        -- destruct I1 as (P & _). simpl in P. rewrite app_nil_r in P. inversion I2 as [|? ? [F _] _]; subst. apply Hbig. now rewrite <- (demand_perm' d _ _ P).
        -- destruct (I5 0%nat 1%nat) as [X|X]; simpl; try lia; now rewrite E in X.
      * destruct (negb _); [discriminate|]. destruct (mmp_solve mm second (e :: sv) (length (mb_sets st))) eqn:Em; try discriminate.
        -- destruct (_ =? _); [discriminate|]. destruct (_ && _); discriminate.
        -- revert Em. apply mmp_nonempty; [assumption|discriminate].
    + exfalso. unfold decide, mb_decide in Ed. destruct (mb_sav st) as [|e sv] eqn:E; [discriminate|]. destruct (negb _); [discriminate|].
      unfold mmp_solve in Ed. destruct (Hall (e :: sv) (length (mb_sets st))) as [x Ex]. rewrite Ex in Ed. destruct (chosen _ _); [discriminate|]. destruct (tuple_max _ _) as [[? ?] [? ?]].
      destruct (_ =? _); [discriminate|]. destruct (_ && _); discriminate.
    + exfalso. unfold decide, mb_decide in Ed. destruct (mb_sav st) as [|e sv] eqn:E; [discriminate|]. destruct (negb _); [discriminate|].
      unfold mmp_solve in Ed. destruct (Hall (e :: sv) (length (mb_sets st))) as [x Ex]. rewrite Ex in Ed. destruct (chosen _ _); [discriminate|]. destruct (tuple_max _ _) as [[? ?] [? ?]].
      destruct (_ =? _); [discriminate|]. destruct (_ && _); discriminate.
    + now eexists.
    + exfalso. now apply (no_continue st HI Hcase).
    + destruct (join_shorter st i j HI Ed) as [S1 S2]. destruct (decide_join st i j Ed) as (w & Hin & HW & _).
      apply IH; [fold calc; lia| |lia]. now apply (join_inv ceps seps N d C L W f Hd0 i j w st).
Qed.
End Loop.
