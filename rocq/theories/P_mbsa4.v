(** * Matching based savings: when it fails *)
From Verif Require Import Spec Spec_inter Spec_savings Spec_rfcs Spec_mbsa PyBase M_mbsa P_base P_inter P_mbsa P_mbsa2 P_mbsa3.
Require Import Sorting.Sorted ZifyBool ZifyNat Lia.
Notation asc := (StronglySorted lt).

Lemma gain_exact N D f g h u : solver N D f -> exact_solver N D f -> g <> [] -> h <> [] -> joined g h u ->
  (forall x, In x u -> (1 <= x < N)%nat) ->
  exists a b, In a g /\ In b h /\ D a 0%nat + D 0%nat b - D a b <= gain f g h u.
Proof.
  intros Hs He Hg Hh [HP HA] Hu. pose proof (asc_nodup _ HA) as Nu. pose proof (Permutation_NoDup HP Nu) as Ngh.
  destruct (nodup_app_split _ _ Ngh) as (Ng & Nh & _).
  assert (Cg : forall x, In x g -> (1 <= x < N)%nat) by (intros x Hx; apply Hu; eapply Permutation_in; [apply Permutation_sym; exact HP|apply in_or_app; now left]).
  assert (Ch : forall x, In x h -> (1 <= x < N)%nat) by (intros x Hx; apply Hu; eapply Permutation_in; [apply Permutation_sym; exact HP|apply in_or_app; now right]).
  destruct (Hs g Hg Ng Cg) as (p & Ep & Pp). destruct (Hs h Hh Nh Ch) as (q & Eq & Pq).
  assert (Une : u <> []) by (intros ->; apply Permutation_nil in HP; destruct g; [congruence|discriminate]).
  assert (Ppq : Permutation (p ++ q) u) by (rewrite Pp, Pq; now apply Permutation_sym).
  pose proof (He u (p ++ q) Une Nu Hu Ppq) as X. unfold gain. rewrite Ep, Eq. simpl snd. rewrite rc_split in X.
  pose proof (rc_split D p []) as H1. rewrite app_nil_r in H1. pose proof (rc_split D [] q) as H2. cbn [app last hd] in H1, H2.
  change (pre_cost D []) with 0 in *. change (suf_cost D []) with 0 in *.
  assert (Pne : p <> []) by (intros ->; apply Permutation_nil in Pp; congruence).
  assert (Qne : q <> []) by (intros ->; apply Permutation_nil in Pq; congruence).
  exists (last p 0%nat), (hd 0%nat q). split; [|split; [|lia]].
  - eapply Permutation_in; [exact Pp|]. destruct (exists_last Pne) as (p' & y & ->). rewrite last_last. apply in_or_app. right. now left.
  - eapply Permutation_in; [exact Pq|]. destruct q; [congruence|now left].
Qed.
Lemma exact_never_cost N D f : solver N D f -> exact_solver N D f -> triangle D -> joins_never_cost N f.
Proof.
  intros Hs He HT g h u Hg Hh HJ Hu. destruct (gain_exact N D f g h u Hs He Hg Hh HJ Hu) as (a & b & _ & _ & X). specialize (HT a 0%nat b). lia.
Qed.
Lemma exact_saves N D f g h u : solver N D f -> exact_solver N D f -> strictly_triangle N D -> g <> [] -> h <> [] -> joined g h u ->
  (forall x, In x u -> (1 <= x < N)%nat) -> 0 < gain f g h u.
Proof.
  intros Hs He HT Hg Hh HJ Hu. destruct (gain_exact N D f g h u Hs He Hg Hh HJ Hu) as (a & b & Ha & Hb & X).
  destruct HJ as [HP HA]. pose proof (Permutation_NoDup HP (asc_nodup _ HA)) as Ngh. destruct (nodup_app_split _ _ Ngh) as (_ & _ & Nd).
  specialize (HT a b). assert (D a b < D a 0%nat + D 0%nat b); [|lia]. apply HT.
  - apply Hu. eapply Permutation_in; [apply Permutation_sym; exact HP|]. apply in_or_app. now left.
  - apply Hu. eapply Permutation_in; [apply Permutation_sym; exact HP|]. apply in_or_app. now right.
  - intros ->. now apply (Nd b).
Qed.

Section Fails.
Variables (ceps seps : Z) (N : nat) (D : matrix) (d : demands) (C L : limit) (minimize_K : bool) (W : Z)
          (f : tsp) (second : bool) (mm : savings -> nat -> mip).
Hypothesis Hd0 : d 0%nat = 0.
Hypothesis HN : (2 <= N)%nat.
Hypothesis Hsol : solver N D f.
Hypothesis Halone : served_alone N D d C L ceps seps.
Hypothesis Hmm : forall sv n x, mm sv n = MipOptimal x -> optimal sv x.
Hypothesis Hall : forall sv n, exists x, mm sv n = MipOptimal x.
Let calc := calc_savings ceps seps d C L f W.
Let inv := Inv ceps seps N d C L W f.
Let run := mbsa_init ceps seps N D d C L minimize_K W f second mm.

Theorem mbsa_returns : minimize_K = true \/ joins_never_cost N f -> ~ within C ceps (demand d (seq 1 (N - 1))) ->
  exists sol, forall fuel, (N <= fuel)%nat -> run fuel = Some (MbReturn sol).
Proof using All.
  intros Hcase Hbig. pose proof (start_inv ceps seps N D d C L W f HN Hsol Halone) as HI.
  destruct (mbsa_ends ceps seps N D d C L minimize_K W f second mm Hd0 HN Hsol Halone Hmm Hcase) as [out Ho].
  assert (Hlen : (length (mb_sets (mb_start ceps seps N d C L W f)) <= N - 1)%nat) by (rewrite start_sets; unfold mb_sets0, range; rewrite map_length, seq_length; lia).
  destruct (loop_returns ceps seps N D d C L minimize_K W f second mm Hd0 HN Hsol Halone Hmm Hcase Hall Hbig (N - 1) _ N Hlen HI ltac:(lia)) as [sol Hs].
  exists sol. intros fuel Hf. unfold run. rewrite (Ho fuel Hf). rewrite <- Hs. symmetry. apply (Ho N). lia.
Qed.

(** The decision when the solver answers *)
Lemma decide_answered st e : In e (mb_sav st) -> fst e <> W -> fst e <> 0 ->
  exists w i j, In (w, (i, j)) (mb_sav st) /\ (forall e', In e' (mb_sav st) -> fst e' <= w) /\
    mb_decide W minimize_K second mm st = (if w =? W then DBreak else if negb minimize_K && (w <? 0) then DContinue else DJoin i j).
Proof using All.
  intros He H1 H2. unfold mb_decide. destruct (mb_sav st) as [|e0 sv] eqn:E; [destruct He|].
  assert (existsb (fun e0 : Z * (nat * nat) => negb (fst e0 =? W) && negb (fst e0 =? 0)) (e0 :: sv) = true) as -> by (apply existsb_exists; exists e; split; [assumption|lia]).
  simpl negb. cbn iota.
  destruct (mmp_solve mm second (e0 :: sv) (length (mb_sets st))) as [w i j| | | |] eqn:Em.
  - destruct (mmp_best _ _ _ _ _ _ _ Hmm Em) as [A1 A2]. exists w, i, j. auto.
  - exfalso. destruct (Hall (e0 :: sv) (length (mb_sets st))) as [x Ex]. unfold mmp_solve in Em. rewrite Ex in Em. destruct (chosen _ _); [discriminate|]. destruct (tuple_max _ _) as [[? ?] [? ?]]. discriminate.
  - exfalso. destruct (Hall (e0 :: sv) (length (mb_sets st))) as [x Ex]. unfold mmp_solve in Em. rewrite Ex in Em. destruct (chosen _ _); [discriminate|]. destruct (tuple_max _ _) as [[? ?] [? ?]]. discriminate.
  - exfalso. destruct (Hall (e0 :: sv) (length (mb_sets st))) as [x Ex]. unfold mmp_solve in Em. rewrite Ex in Em. destruct (chosen _ _); [discriminate|]. destruct (tuple_max _ _) as [[? ?] [? ?]]. discriminate.
  - exfalso. revert Em. apply mmp_nonempty; [assumption|discriminate].
Qed.

(** ** Everybody fits in one route *)
Section OneRoute.
Hypothesis Hex : exact_solver N D f.
Hypothesis Hst : strictly_triangle N D.
Hypothesis Hdn : forall n, 0 <= d n.
Hypothesis HC : within C ceps (demand d (seq 1 (N - 1))).
Hypothesis HL : ~ limit_set L.
Hypothesis HW : W <= 0.

Lemma all_positive st e : inv st -> In e (mb_sav st) -> 0 < fst e.
Proof using All.
  intros HI He. destruct e as [w [i j]]. pose proof HI as [I1 I2 I3 I4 I5]. destruct (I4 _ _ _ He) as (Hne & Hi & Hj & Ew & _). simpl.
  pose proof (union_joined _ _ (set_at_asc N _ j I1) (pair_nodup N _ i j I1 Hne Hi Hj)) as HJ.
  destruct (set_customers N _ i I1 Hi) as (A1 & _ & A3). destruct (set_customers N _ j I1 Hj) as (B1 & _ & B3).
  assert (Y : forall x, In x (union (set_at (mb_sets st) i) (set_at (mb_sets st) j)) -> (1 <= x < N)%nat) by (intros x Hx; apply in_union in Hx; destruct Hx; auto).
  assert (HF : fits d C L ceps seps f (set_at (mb_sets st) i) (set_at (mb_sets st) j) (union (set_at (mb_sets st) i) (set_at (mb_sets st) j))).
  { split.
    - revert HC. unfold within. destruct C as [c|]; [|auto]. intros H Hc. specialize (H Hc). destruct I1 as (P & _).
      pose proof (pair_perm [] _ i j Hne Hi Hj) as HQ.
      change (Permutation (mb_sets st) (set_at (mb_sets st) i :: set_at (mb_sets st) j :: del_nth (phi j i) (del_nth j (mb_sets st)))) in HQ.
      rewrite <- (demand_perm' d _ _ P) in H. rewrite (demand_perm' d _ _ (concat_perm _ _ HQ)) in H. simpl in H.
      rewrite app_assoc in H. unfold demand in *. rewrite map_app in H.
      assert (E : forall l m, sumZ (l ++ m) = sumZ l + sumZ m) by (induction l; intros; simpl; [lia|rewrite IHl; lia]). rewrite E in H.
      assert (0 <= sumZ (map d (concat (del_nth (phi j i) (del_nth j (mb_sets st)))))).
      { generalize (concat (del_nth (phi j i) (del_nth j (mb_sets st)))). induction l as [|x l IH]; simpl; [lia|]. specialize (Hdn x). lia. }
      lia.
    - destruct L as [l|]; simpl; [|exact I]. intros Hl. exfalso. apply HL. exact Hl. }
  rewrite (fits_value ceps seps N d C L W f Hd0 _ i j _ I1 Hne Hi Hj HJ HF) in Ew. rewrite Ew. now apply (exact_saves N D).
Qed.
Lemma loop_crashes : forall n st fuel, (length (mb_sets st) <= n)%nat -> inv st -> (n < fuel)%nat ->
  mb_loop ceps seps D d C L minimize_K W f second mm fuel st = Some MbValueError.
Proof using All.
  induction n as [|n IH]; intros st [|fuel] Hlen HI Hf; try lia; simpl.
  - pose proof HI as [I1 I2 I3 I4 I5]. unfold mb_decide. destruct (mb_sav st) as [|[w [i j]] sv]; [reflexivity|]. destruct (I4 w i j (or_introl eq_refl)). lia.
  - destruct (mb_sav st) as [|e sv] eqn:E; [unfold mb_decide; rewrite E; reflexivity|].
    pose proof (all_positive st e HI ltac:(rewrite E; now left)) as Pe.
    destruct (decide_answered st e ltac:(rewrite E; now left) ltac:(lia) ltac:(lia)) as (w & i & j & Hin & _ & ->).
    pose proof (all_positive st _ HI Hin) as Pw. simpl in Pw.
    destruct (Z.eqb_spec w W); [lia|]. destruct (Z.ltb_spec w 0); [lia|]. rewrite andb_false_r.
    destruct (inv_keys _ _ _ _ _ _ _ _ _ HI _ _ _ Hin) as (Hne & Hi & Hj & _).
    apply IH; [|now apply (join_inv ceps seps N d C L W f Hd0 i j w st)|lia].
    unfold mb_join. destruct (price _ _ _). simpl. rewrite mb_joined_length by assumption. lia.
Qed.
Theorem mbsa_one_route fuel : (N <= fuel)%nat -> run fuel = Some MbValueError.
Proof using All.
  intros Hf. apply (loop_crashes (N - 1)); [|apply (start_inv ceps seps N D d C L W f HN Hsol Halone)|lia].
  rewrite start_sets. unfold mb_sets0, range. rewrite map_length, seq_length. lia.
Qed.
End OneRoute.

(** ** Two customers are always dearer together *)
Section Endless.
Hypothesis HN3 : (3 <= N)%nat.
Hypothesis HK : minimize_K = false.
Hypothesis HW0 : 0 <= W.
Hypothesis Hfit : forall i j, (1 <= i < N)%nat -> (1 <= j < N)%nat -> i <> j -> feasible D d C L ceps seps [i; j].
Hypothesis Hdear : forall i j, (1 <= i < N)%nat -> (1 <= j < N)%nat -> i <> j -> D i 0%nat + D 0%nat j < D i j.

Theorem mbsa_endless fuel : run fuel = None.
Proof using All.
  pose proof (start_inv ceps seps N D d C L W f HN Hsol Halone) as HI. unfold run, mbsa_init. set (st := mb_start ceps seps N d C L W f) in *.
  assert (Hs : mb_sets st = mb_sets0 N) by apply start_sets. pose proof HI as [I1 I2 I3 I4 I5].
  assert (Hat : forall i, (i < length (mb_sets st))%nat -> set_at (mb_sets st) i = [S i] /\ (S i < N)%nat).
  { intros i. rewrite Hs. unfold mb_sets0, range, set_at. rewrite map_length, seq_length. intros Hi. split; [|lia].
    rewrite (nth_indep _ [] [0%nat]) by (rewrite map_length, seq_length; lia). change [0%nat] with ((fun i => [i]) 0%nat). rewrite map_nth, seq_nth by lia. reflexivity. }
  assert (Hneg : forall e, In e (mb_sav st) -> fst e < 0).
  { intros [w [i j]] He. destruct (I4 _ _ _ He) as (Hne & Hi & Hj & Ew & _). destruct (Hat i Hi) as [Ei Li]. destruct (Hat j Hj) as [Ej Lj]. simpl.
    pose proof (union_joined _ _ (set_at_asc N _ j I1) (pair_nodup N _ i j I1 Hne Hi Hj)) as HJ.
    rewrite Ei, Ej in *. set (u := union [S i] [S j]) in *. destruct HJ as [HP HA]. simpl in HP.
    assert (Hu : u <> [] /\ NoDup u /\ forall x, In x u -> (1 <= x < N)%nat).
    { split; [intros X; rewrite X in HP; now apply Permutation_nil_cons in HP|]. split; [now apply asc_nodup|]. intros x Hx. apply (Permutation_in _ HP) in Hx. destruct Hx as [<-|[<-|[]]]; lia. }
    destruct (Hsol u) as (r & Er & Pr); try apply Hu.
    assert (Hr : r = [S i; S j] \/ r = [S j; S i]) by (rewrite HP in Pr; apply Permutation_sym, Permutation_length_2_inv in Pr; exact Pr).
    assert (HF : fits d C L ceps seps f [S i] [S j] u).
    { pose proof (Hfit (S i) (S j) ltac:(lia) ltac:(lia) ltac:(lia)) as [F1 F2]. pose proof (Hfit (S j) (S i) ltac:(lia) ltac:(lia) ltac:(lia)) as [_ F3].
      split; [exact F1|]. rewrite Er. simpl snd. now destruct Hr as [-> | ->]. }
    pose proof (fits_value ceps seps N d C L W f Hd0 _ i j u I1 Hne Hi Hj) as FV. rewrite Ei, Ej in FV. rewrite (FV (conj HP HA) HF) in Ew.
    destruct (Hsol [S i]) as (r1 & E1 & P1); [discriminate|repeat constructor; intros []|intros x [<-|[]]; lia|].
    destruct (Hsol [S j]) as (r2 & E2 & P2); [discriminate|repeat constructor; intros []|intros x [<-|[]]; lia|].
    apply Permutation_sym, Permutation_length_1_inv in P1, P2. subst r1 r2.
    unfold gain in Ew. rewrite Er, E1, E2 in Ew. simpl snd in Ew.
    pose proof (Hdear (S i) (S j) ltac:(lia) ltac:(lia) ltac:(lia)). pose proof (Hdear (S j) (S i) ltac:(lia) ltac:(lia) ltac:(lia)).
    destruct Hr as [-> | ->]; unfold route_cost in Ew; simpl in Ew; lia. }
  assert (Hlen : (2 <= length (mb_sets st))%nat) by (rewrite Hs; unfold mb_sets0, range; rewrite map_length, seq_length; lia).
  assert (exists e, In e (mb_sav st)) as [e He] by (destruct (I5 0%nat 1%nat) as [X|X]; try lia; eexists; exact X).
  pose proof (Hneg e He) as Ne.
  destruct (decide_answered st e He ltac:(lia) ltac:(lia)) as (w & i & j & Hin & _ & Hd). pose proof (Hneg _ Hin) as Nw. simpl in Nw.
  rewrite HK in Hd. destruct (Z.eqb_spec w W); [lia|]. destruct (Z.ltb_spec w 0); [|lia]. simpl in Hd.
  induction fuel as [|fuel IH]; [reflexivity|]. simpl. rewrite HK. rewrite Hd. rewrite <- HK. exact IH.
Qed.
End Endless.
End Fails.
