(** * Wren and Holliday: a turn of the loop, and when the loop ends *)
From Verif Require Import Spec Spec_rfcs Spec_ls Spec_inter Spec_savings PyBase M_util M_routedata M_intra M_inter M_driver Spec_driver M_psavings M_ssavings M_savfam M_sweep
     P_base P_cvrp P_rd P_util P_scan P_intra P_intra2 P_inter P_inter2 P_inter3 P_sweep P_sweep2 P_sweep3 P_sweep5 P_driver P_driver2 P_mj2 M_wh P_wh P_wh2 P_wh3 P_wh4 P_wh5.
From Coq Require Import ZifyBool ZifyNat Lia List Permutation.
Import ListNotations.
Local Open Scope Z_scope.

Lemma ne_cons r rs : ne (r :: rs) = ne1 r + ne rs.
Proof. reflexivity. Qed.
Lemma ne_filter rs : ne (filter nonempty rs) = ne rs.
Proof. induction rs as [|[|x r] rs IH]; [reflexivity| |]; cbn [filter nonempty]; rewrite !ne_cons; cbn [ne1]; lia. Qed.
Lemma ne_le rs : ne rs <= Z.of_nat (length rs).
Proof. induction rs as [|[|x r] rs IH]; [reflexivity| |]; rewrite ne_cons; cbn [ne1 length]; lia. Qed.
Lemma ne_all rs : Forall (fun r => r <> []) rs -> ne rs = Z.of_nat (length rs).
Proof. intros H. induction H as [|[|x r] rs H1 H2 IH]; [reflexivity|easy|]. rewrite ne_cons; cbn [ne1 length]; lia. Qed.
Lemma ne_pos rs : 0 <= ne rs.
Proof. induction rs as [|[|x r] rs IH]; [reflexivity| |]; rewrite ne_cons; cbn [ne1]; lia. Qed.
Lemma filter_full rs : Forall (fun r => r <> []) (filter nonempty rs).
Proof. apply Forall_forall. intros r Hr. apply filter_In in Hr as [_ Hr]. now destruct r. Qed.

Section Loop.
Variables (eps : Z) (N : nat) (D : matrix) (d : demands) (C L : limit).
Variables (order : list nat) (overlap : list nat -> list nat -> bool) (gap : list nat -> nat) (set_order : list nat -> list nat).
Variables (minimize_K full_convergence : bool).
Notation exact := (exact_rd D d C).
Notation feas := (feasible D d C L eps eps).
Notation cost := (routes_cost D).
Notation ok := (ok eps D d C L).
Notation full := (Forall (fun r : list nat => r <> [])).
Notation no_worse := (no_worse D).
Notation better := (better D).
Notation known := (known N).
Notation tidy := (tidy minimize_K).
Hypothesis Heps : 0 <= eps.
Hypothesis Hsym : symmetric D.
Hypothesis HT : triangle D.
Hypothesis Hd : forall n, 0 <= d n.
Hypothesis Hd0 : d 0%nat = 0.
Hypothesis HD0 : D 0%nat 0%nat = 0.
Hypothesis Hset : forall l, Permutation (set_order l) l.
Hypothesis Halone : served_alone N D d C L eps eps.
Hypothesis Horder : Permutation order (seq 1 (N - 1)).
Hypothesis Hgap : forall l, l <> [] -> (gap l < length l)%nat.
Hypothesis Hnil : feas [].

Notation dis := (disentangle_heuristic eps N D d C L order overlap gap set_order).
Lemma over_dstep {A} cs (body : A -> wst -> wst * outcome) K : forall l,
  (forall x st, In x l -> length (ws_routes st) = K -> dstep eps D d C L cs st (fst (body x st))) ->
  forall st imp, length (ws_routes st) = K -> dstep eps D d C L cs st (fst (over l body st imp)).
Proof.
  clear. induction l as [|x l IH]; intros H st imp HK rs Ho; [exists rs; split; [exact Ho|]; split; [reflexivity|]; split; [reflexivity|apply no_worse_refl]|]. cbn [over].
  pose proof (H x st (or_introl eq_refl) HK rs Ho) as (r1 & A1 & A2 & A3 & A4).
  destruct (body x st) as [st' [b|]] eqn:E; cbn [fst] in *; [|now exists r1].
  assert (HK' : length (ws_routes st') = K) by (apply ok_length in A1; apply ok_length in Ho; congruence).
  destruct (IH (fun y s Hy => H y s (or_intror Hy)) st' (imp || b)%bool HK' r1 A1) as (r2 & B1 & B2 & B3 & B4).
  exists r2. split; [exact B1|]. split; [congruence|]. split; [etransitivity; eassumption|eapply no_worse_trans; eassumption].
Qed.
Lemma pairs_in n ix : In ix (kperms 2 (range 0 n)) -> exists i j, ix = [i; j] /\ i <> j /\ (i < n)%nat /\ (j < n)%nat.
Proof.
  clear. intros H. apply in_kperms in H as (H1 & H2 & H3); [|unfold range; apply seq_NoDup].
  destruct ix as [|i [|j [|? ?]]]; try discriminate. exists i, j. split; [reflexivity|]. inversion H2; subst. split; [intros ->; apply H4; now left|].
  split; apply in_range, H3; cbn; auto.
Qed.
Lemma disentangle_ok cs fuel st : known cs -> dstep eps D d C L cs st (fst (dis fuel st)).
Proof.
  intros Hk. unfold disentangle_heuristic. apply over_dstep with (length (ws_routes st)); [|reflexivity].
  intros ix s Hix HK. apply pairs_in in Hix as (i & j & -> & Hij & Hi & Hj). apply (disentangle_at_ok eps N D d C L order overlap gap set_order); try assumption; lia.
Qed.
Lemma disentangle_total cs rs st : known cs -> ok cs rs st -> total (fun fuel => dis fuel st).
Proof.
  intros Hk Ho. unfold disentangle_heuristic. apply over_total with (P := fine eps D d C L (length (ws_routes st)) cs).
  - intros ix s Hix [HK [r1 O1]]. apply pairs_in in Hix as (i & j & -> & Hij & Hi & Hj).
    destruct (disentangle_at_total eps N D d C L order overlap gap set_order Heps Hsym HT Hd Hd0 Hset Halone Horder Hgap cs r1 i j s Hk O1 Hij) as (f0 & st' & E); [lia|lia|].
    now exists f0, st', false.
  - intros ix s fuel Hix [HK [r1 O1]]. apply pairs_in in Hix as (i & j & -> & Hij & Hi & Hj).
    destruct (disentangle_at_ok eps N D d C L order overlap gap set_order Heps Hsym HT Hd Hd0 HD0 Hset Halone Horder Hgap Hnil cs fuel i j s Hk Hij) with (rs := r1) as (r2 & O2 & L2 & _); [lia|lia|exact O1|].
    split; [|now exists r2]. apply ok_length in O1. apply ok_length in O2. congruence.
  - split; [reflexivity|now exists rs].
Qed.
Lemma disentangle_flag fuel st b : snd (dis fuel st) = Ended b -> b = false.
Proof.
  unfold disentangle_heuristic. generalize (kperms 2 (range 0 (length (ws_routes st)))) as l. clear.
  assert (G : forall l st imp b, snd (over l (disentangle_at eps N D d C L order overlap gap set_order fuel) st imp) = Ended b -> imp = false -> b = false).
  { induction l as [|ix l IH]; intros s imp c H Hi; [cbn in H; injection H; congruence|]. cbn [over] in H.
    assert (Hb : forall s' b', disentangle_at eps N D d C L order overlap gap set_order fuel ix s = (s', Ended b') -> b' = false).
    { intros s' b' E. unfold disentangle_at in E. destruct ix as [|i [|j [|? ?]]]; try (injection E; congruence).
      destruct (_ || _)%bool; [injection E; congruence|]. destruct (overlap _ _); [|injection E; congruence].
      destruct (disentangle_pair _ _ _ _ _ _ _ _ _ _ _ _); try (injection E; congruence); discriminate. }
    destruct (disentangle_at eps N D d C L order overlap gap set_order fuel ix s) as [s' [b'|]] eqn:E; [|discriminate].
    eapply IH; [exact H|]. rewrite (Hb _ _ eq_refl). subst. reflexivity. }
  intros l H. eapply G; [exact H|reflexivity].
Qed.

Lemma remove_ok cs rs st : ok cs rs st -> ok cs (filter nonempty rs) (remove_empty st).
Proof.
  intros Ho. pose proof (ok_part _ _ _ _ _ _ _ _ Ho) as Hp. destruct Ho as (H1 & H2 & H3 & H4 & H5). unfold remove_empty, put, P_wh.ok. cbn [ws_routes ws_log].
  split; [apply filter_exact; [intros r rd (H & _); exact H|exact H1]|]. split; [unfold distinct_customers; now rewrite concat_nonempty|].
  split; [apply Forall_forall; intros r Hr; apply filter_In in Hr as [Hr _]; rewrite Forall_forall in H3; now apply H3|].
  split; [now rewrite concat_nonempty|]. now constructor.
Qed.
Lemma filter_no_worse rs : no_worse rs (filter nonempty rs) /\ no_worse (filter nonempty rs) rs.
Proof. unfold P_wh5.no_worse. rewrite ne_filter, filter_cost by exact HD0. lia. Qed.

(** What a stage of a turn does *)
Definition staged (rs rs' : list (list nat)) (b : bool) : Prop :=
  Permutation (concat rs') (concat rs) /\ (minimize_K = true -> full rs -> full rs' /\ no_worse rs rs' /\ (b = true -> better rs rs')).
Lemma staged_trans a b c x y : staged a b x -> staged b c y -> staged a c (x || y).
Proof.
  intros [H1 H2] [H3 H4]. split; [etransitivity; eassumption|]. intros Hm Ha. destruct (H2 Hm Ha) as (B1 & B2 & B3). destruct (H4 Hm B1) as (C1 & C2 & C3).
  split; [exact C1|]. split; [eapply no_worse_trans; eassumption|]. intros Hb. apply orb_true_iff in Hb as [->| ->]; [eapply better_trans; eauto|eapply trans_better; eauto].
Qed.
Lemma staged_refl a : staged a a false.
Proof. split; [reflexivity|]. intros _ H. split; [exact H|]. split; [apply no_worse_refl|discriminate]. Qed.
Lemma stage cs rs st st' b : ok cs rs st -> step eps D d C L st st' b -> exists rs', ok cs rs' (tidy b st') /\ staged rs rs' b.
Proof.
  intros Ho Hs. destruct (Hs cs rs Ho) as (r1 & O1 & L1 & P1 & F1 & T1). unfold M_wh.tidy. destruct b; cbn [andb].
  - specialize (T1 eq_refl). destruct minimize_K eqn:Em.
    + exists (filter nonempty r1). split; [now apply remove_ok|]. split; [now rewrite concat_nonempty|]. intros _ Hf.
      assert (Hb : better rs (filter nonempty r1)).
      { unfold P_wh5.better. rewrite ne_filter, filter_cost by exact HD0. rewrite (ne_all rs Hf). pose proof (ne_le r1). right. lia. }
      split; [apply filter_full|]. split; [now apply better_no_worse|]. now intros _.
    + exists r1. split; [exact O1|]. split; [exact P1|]. congruence.
  - destruct (F1 eq_refl) as [-> ->]. exists rs. split; [exact Ho|]. apply staged_refl.
Qed.

Lemma inspect_stage cs rs st fuel st' b : ok cs rs st -> inspect_heuristic eps D fuel st = (st', Ended b) -> exists rs', ok cs rs' (tidy b st') /\ staged rs rs' b.
Proof. intros Ho E. pose proof (inspect_step eps D d C L Heps Hsym HT Hd fuel st) as H. rewrite E in H. now apply (stage cs rs st). Qed.
Lemma single_stage cs rs st fuel st' b : ok cs rs st -> single_heuristic eps D d C L fuel st = (st', Ended b) -> exists rs', ok cs rs' (tidy b st') /\ staged rs rs' b.
Proof. intros Ho E. pose proof (single_step eps D d C L Heps Hsym HT Hd fuel st) as H. rewrite E in H. now apply (stage cs rs st). Qed.

Definition started (st : wst) : wst :=
  let st0 := remove_empty st in if minimize_K then st0 else put (ws_routes st0 ++ [empty_rd]) st0.
Lemma started_ok cs rs st : ok cs rs st -> exists rs', ok cs rs' (started st) /\ Permutation (concat rs') (concat rs) /\ (minimize_K = true -> full rs' /\ no_worse rs rs').
Proof.
  intros Ho. pose proof (remove_ok cs rs st Ho) as H. unfold started. destruct minimize_K.
  - exists (filter nonempty rs). split; [exact H|]. split; [now rewrite concat_nonempty|]. intros _. split; [apply filter_full|apply filter_no_worse].
  - exists (filter nonempty rs ++ [[]]). split.
    + pose proof (ok_part _ _ _ _ _ _ _ _ H) as Hp. destruct H as (H1 & H2 & H3 & H4 & H5). unfold put, P_wh.ok. cbn [ws_routes ws_log].
      assert (Ec : concat (filter nonempty rs ++ [[]]) = concat (filter nonempty rs)) by (rewrite concat_app; apply app_nil_r).
      split; [apply Forall2_app; [exact H1|constructor; [now apply empty_exact|constructor]]|]. unfold distinct_customers. rewrite Ec.
      split; [exact H2|]. split; [apply Forall_app; split; [exact H3|constructor; [exact Hnil|constructor]]|]. split; [exact H4|]. now constructor.
    + split; [|discriminate]. rewrite concat_app, concat_nonempty. cbn. now rewrite app_nil_r.
Qed.

Definition settled (cs : list nat) (st : wst) (rs : list (list nat)) : Prop := exists rs', ok cs rs' st /\ Permutation (concat rs') (concat rs).
Lemma running_settled cs rs st st' : ok cs rs st -> running eps D d C L st st' -> settled cs st' rs.
Proof. intros Ho Hr. destruct (Hr cs rs Ho) as (r & O & _ & P). now exists r. Qed.
Lemma settled_perm cs st rs rs0 : settled cs st rs -> Permutation (concat rs) (concat rs0) -> settled cs st rs0.
Proof. intros (r & O & P) H. exists r. split; [exact O|]. etransitivity; eassumption. Qed.

Lemma up_to_Q_ok cs rs st fuel st' o : ok cs rs st -> up_to_Q eps D d C L minimize_K fuel st = (st', o) ->
  settled cs st' rs /\ (forall b, o = Ended b -> exists rs', ok cs rs' st' /\ Permutation (concat rs') (concat rs) /\
    (minimize_K = true -> full rs' /\ no_worse rs rs' /\ (b = true -> better rs rs'))).
Proof.
  intros Ho E. destruct (started_ok cs rs st Ho) as (r0 & O0 & P0 & W0). unfold up_to_Q in E. cbv zeta in E. fold (started st) in E.
  destruct (inspect_heuristic eps D fuel (started st)) as [st2 [b1|]] eqn:E1.
  2:{ injection E as <- <-. split; [|discriminate]. eapply settled_perm; [|exact P0]. eapply running_settled; [exact O0|].
      pose proof (inspect_step eps D d C L Heps Hsym HT Hd fuel (started st)) as H. now rewrite E1 in H. }
  destruct (inspect_stage cs r0 _ fuel st2 b1 O0 E1) as (r1 & O1 & S1).
  destruct (single_heuristic eps D d C L fuel (tidy b1 st2)) as [st3 [b2|]] eqn:E2.
  2:{ injection E as <- <-. split; [|discriminate]. eapply settled_perm; [|exact P0]. eapply settled_perm; [|exact (proj1 S1)]. eapply running_settled; [exact O1|].
      pose proof (single_step eps D d C L Heps Hsym HT Hd fuel (tidy b1 st2)) as H. now rewrite E2 in H. }
  destruct (single_stage cs r1 _ fuel st3 b2 O1 E2) as (r2 & O2 & S2). injection E as <- <-.
  pose proof (staged_trans _ _ _ _ _ S1 S2) as [P12 S12]. assert (P : Permutation (concat r2) (concat rs)) by (etransitivity; eassumption).
  split; [now exists r2|]. intros b Hb. injection Hb as <-. exists r2. split; [exact O2|]. split; [exact P|]. intros Hm. destruct (W0 Hm) as [F0 W].
  destruct (S12 Hm F0) as (F2 & W2 & B2). split; [exact F2|]. split; [eapply no_worse_trans; eassumption|]. intros Hb. eapply trans_better; [exact W|auto].
Qed.
Lemma up_to_Q_total cs rs st : ok cs rs st -> total (fun fuel => up_to_Q eps D d C L minimize_K fuel st).
Proof.
  intros Ho. destruct (started_ok cs rs st Ho) as (r0 & O0 & _).
  destruct (inspect_total eps D d C L Heps Hsym HT Hd _ _ _ O0) as (f1 & st1 & b1 & E1).
  destruct (inspect_stage cs r0 _ f1 st1 b1 O0 (E1 f1 (Nat.le_refl _))) as (r1 & O1 & _).
  destruct (single_total eps D d C L Heps Hsym HT Hd _ _ _ O1) as (f2 & st2 & b2 & E2).
  exists (Nat.max f1 f2), (tidy b2 st2), (b1 || b2)%bool. intros fuel Hf. unfold up_to_Q. cbv zeta. fold (started st).
  rewrite E1 by lia. rewrite E2 by lia. reflexivity.
Qed.

Lemma delete_stage cs rs st st' b : ok cs rs st -> delete_heuristic eps D d C L st = (st', b) -> exists rs', ok cs rs' (tidy b st') /\ staged rs rs' b.
Proof.
  intros Ho E. pose proof (ok_part _ _ _ _ _ _ _ _ Ho) as Hp. pose proof Ho as (H1 & H2 & H3 & H4 & H5). unfold delete_heuristic in E.
  pose proof (delete_best_ok eps D d C L HT HD0 rs (ws_routes st) H1) as H. destruct (snd (delete_best eps D d C L (ws_routes st))) as [result|]; injection E as <- <-.
  - destruct H as (r1 & A1 & A2 & A3 & A4).
    assert (O1 : ok cs ([] :: r1) (put result st)).
    { unfold put, P_wh.ok. cbn [ws_routes ws_log concat app]. split; [exact A1|]. split; [unfold distinct_customers; cbn [concat app]; now apply (dist_perm rs)|].
      split; [constructor; [exact Hnil|now apply A4]|]. split; [intros x Hx; apply H4; eapply Permutation_in; eassumption|]. now constructor. }
    unfold M_wh.tidy. cbn [andb]. destruct minimize_K eqn:Em.
    + exists (filter nonempty ([] :: r1)). split; [now apply remove_ok|]. split; [rewrite concat_nonempty; exact A3|]. intros _ Hf.
      assert (Hb : better rs (filter nonempty ([] :: r1))).
      { left. rewrite ne_filter, (ne_all rs Hf). pose proof (ne_le r1). change (ne ([] :: r1)) with (0 + ne r1). lia. }
      split; [apply filter_full|]. split; [now apply better_no_worse|now intros _].
    + exists ([] :: r1). split; [exact O1|]. split; [exact A3|congruence].
  - exists rs. split; [exact Ho|apply staged_refl].
Qed.

Lemma pair_stage cs rs st : ok cs rs st -> forall st' b, (if Nat.leb N 80 then
    match pair_heuristic eps N D d C L st with (st', Ended b) => (tidy b st', b) | (st', Running) => (st', false) end else (st, false)) = (st', b) ->
  exists rs', ok cs rs' st' /\ staged rs rs' b.
Proof.
  intros Ho st' b. destruct (Nat.leb N 80); [|intros E; injection E as <- <-; exists rs; split; [exact Ho|apply staged_refl]].
  destruct (pair_ends eps N D d C L st) as (s & b1 & E). rewrite E. intros E2; injection E2 as <- <-.
  pose proof (pair_step eps N D d C L Heps Hsym HT Hd st) as H. rewrite E in H. now apply (stage cs rs st).
Qed.

Lemma after_Q_ok cs rs st deleted fuel st' o del' : known cs -> ok cs rs st ->
  after_Q eps N D d C L order overlap gap set_order minimize_K fuel deleted st = (st', o, del') ->
  settled cs st' rs /\ (minimize_K = true -> full rs -> exists rs', ok cs rs' st' /\ Permutation (concat rs') (concat rs) /\ no_worse rs rs' /\
    (forall b, o = Ended b -> b = true \/ del' = true -> better rs rs')).
Proof.
  intros Hk Ho E. unfold after_Q in E. destruct (if Nat.leb N 80 then _ else _) as [st1 b1] eqn:E1.
  destruct (pair_stage cs rs st Ho _ _ E1) as (r1 & O1 & S1).
  destruct (if deleted then _ else _) as [st2 b2] eqn:E2.
  assert (G : exists r2, ok cs r2 st2 /\ staged r1 r2 b2).
  { destruct deleted; [|injection E2 as <- <-; exists r1; split; [exact O1|apply staged_refl]].
    destruct (delete_heuristic eps D d C L st1) as [s b] eqn:Ed. injection E2 as <- <-. now apply (delete_stage cs r1 st1). }
  destruct G as (r2 & O2 & S2). pose proof (staged_trans _ _ _ _ _ S1 S2) as [P12 S12].
  destruct (disentangle_ok cs fuel st2 Hk r2 O2) as (r3 & O3 & L3 & P3 & W3). pose proof (disentangle_flag fuel st2) as Hfl.
  destruct (dis fuel st2) as [st3 [b3|]] eqn:E3; cbn [fst snd] in *; injection E as <- <- <-.
  - specialize (Hfl b3 eq_refl). subst b3. unfold M_wh.tidy. cbn [andb]. split; [exists r3; split; [exact O3|etransitivity; eassumption]|].
    intros Hm Hf. destruct (S12 Hm Hf) as (F2 & W2 & B2). exists r3. split; [exact O3|]. split; [etransitivity; eassumption|]. split; [eapply no_worse_trans; eassumption|].
    intros b Hb Hor. injection Hb as <-. eapply better_trans; [|exact W3]. apply B2. rewrite orb_false_r in Hor. destruct Hor as [Hor| ->]; [exact Hor|apply orb_true_r].
  - split; [exists r3; split; [exact O3|etransitivity; eassumption]|].
    intros Hm Hf. destruct (S12 Hm Hf) as (F2 & W2 & B2). exists r3. split; [exact O3|]. split; [etransitivity; eassumption|]. split; [eapply no_worse_trans; eassumption|].
    discriminate.
Qed.
Lemma after_Q_total cs rs st deleted : known cs -> ok cs rs st -> exists f0 st' b del', forall fuel, (f0 <= fuel)%nat ->
  after_Q eps N D d C L order overlap gap set_order minimize_K fuel deleted st = (st', Ended b, del').
Proof.
  intros Hk Ho. unfold after_Q. destruct (if Nat.leb N 80 then _ else _) as [st1 b1] eqn:E1.
  destruct (pair_stage cs rs st Ho _ _ E1) as (r1 & O1 & S1).
  destruct (if deleted then _ else _) as [st2 b2] eqn:E2.
  assert (G : exists r2, ok cs r2 st2).
  { destruct deleted; [|injection E2 as <- <-; now exists r1].
    destruct (delete_heuristic eps D d C L st1) as [s b] eqn:Ed. injection E2 as <- <-. destruct (delete_stage cs r1 st1 s b O1 Ed) as (r & O & _). now exists r. }
  destruct G as (r2 & O2). destruct (disentangle_total cs r2 st2 Hk O2) as (f0 & st3 & b3 & E3).
  exists f0, (tidy b3 st3), (b1 || b2 || b3)%bool, b2. intros fuel Hf. now rewrite E3.
Qed.
End Loop.
