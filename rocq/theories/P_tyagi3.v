(** * Tyagi's heuristic: the choice of the grouping and the result *)
From Verif Require Import Spec Spec_inter Spec_savings Spec_nn Spec_rfcs Spec_tyagi PyBase M_util M_psavings M_nn M_tyagi P_base P_util P_3optstar P_driver P_nn3 P_tyagi P_tyagi2.
Require Import ZifyBool ZifyNat Lia.

(** ** The criteria *)
Section Criteria.
Variable g : grouping.
Variable D : matrix.
Variable d : demands.
Variable c : Z.
Hypothesis d0 : d 0%nat = 0.
Hypothesis Hc : 0 < c.

Lemma route_demands_app r : customers_only r -> forall acc t, route_demands (r ++ t) d acc = route_demands t d (acc + demand d r).
Proof.
  induction r as [|x r IH]; intros Hr acc t; [cbn; f_equal; lia|]. inversion Hr as [|? ? Hx Hr']; subst. cbn [app route_demands].
  destruct (Nat.eqb_spec x 0); [contradiction|]. cbn [andb]. rewrite IH by exact Hr'. f_equal. rewrite demand_cons. lia.
Qed.

Lemma route_demands_spec rs : Forall customers_only rs ->
  route_demands (encode rs) d 0 = filter (fun x => negb (x =? 0)) (map (demand d) rs).
Proof.
  intros H. unfold encode. cbn [app route_demands]. rewrite Nat.eqb_refl. cbn. replace (d 0%nat) with 0 by auto. induction H as [|r rs Hr _ IH]; [reflexivity|].
  cbn [flat_map]. rewrite <- app_assoc, route_demands_app by exact Hr. rewrite Z.add_0_l. cbn [app route_demands Nat.eqb map filter andb].
  destruct (demand d r =? 0) eqn:E; cbn [negb]; [|f_equal; exact IH]. replace (demand d r + d 0%nat) with 0 by lia. exact IH.
Qed.

Lemma sum_nonzero (f : Z -> Z) l : f 0 = 0 -> sumZ (map f (filter (fun x => negb (x =? 0)) l)) = sumZ (map f l).
Proof.
  intros H. induction l as [|x l IH]; [reflexivity|]. cbn [filter map]. destruct (Z.eqb_spec x 0) as [->|Hx]; cbn [negb map]; rewrite !sumZ_cons, IH; lia.
Qed.

Lemma statistics_spec rs K : Forall customers_only rs ->
  demand_statistics (encode rs) d K = UBal K (load d rs) (sumZ (map (fun r => demand d r * demand d r) rs)).
Proof.
  intros H. unfold demand_statistics. rewrite route_demands_spec by exact H. f_equal.
  - rewrite <- (map_id (filter _ _)), (sum_nonzero (fun x => x)), map_id by reflexivity. reflexivity.
  - rewrite (sum_nonzero (fun x => x * x)) by reflexivity. now rewrite map_map.
Qed.

Lemma totald_wrap r : totald (wrap r) d = demand d r.
Proof. unfold totald, wrap, demand. cbn [map]. rewrite sumZ_cons, map_app, sumZ_app. cbn. lia. Qed.
Lemma totald_encode rs : totald (encode rs) d = load d rs.
Proof.
  unfold totald, encode, load. cbn [map]. rewrite sumZ_cons, d0. induction rs as [|r rs IH]; [reflexivity|]. cbn [flat_map map]. rewrite map_app, map_app, !sumZ_app, sumZ_cons. unfold demand at 1. cbn [map]. rewrite sumZ_cons, d0. cbn [sumZ fold_right] in *. lia.
Qed.

Lemma penalty_spec rs : Forall customers_only rs -> Forall (fun r => r <> []) rs -> calculate_penalty (encode rs) D d c = penalty D d c rs.
Proof.
  intros H Hne. unfold calculate_penalty, penalty. rewrite sol2routes_encode by exact H.
  assert (E : filter nonempty rs = rs) by (clear - Hne; induction Hne as [|r l Hr _ IH]; [reflexivity|]; cbn; destruct r; [easy|]; cbn; now f_equal). rewrite E, map_map. f_equal.
  apply map_ext. intros r. rewrite totald_wrap, objf_path. reflexivity.
Qed.

(** A grouping rated: its routes, and the number of routes with which the capacity is counted. *)
Definition rating := (list (list nat) * nat)%type.
Definition rated (x : rating) : Prop := Forall customers_only (fst x) /\ Forall (fun r => r <> []) (fst x) /\ (1 <= length (fst x))%nat /\ (1 <= snd x)%nat.
Definition util (x : rating) : utilisation := utilisation_of g (encode (fst x)) D d c (length (fst x)) (snd x).
Definition bt (x y : rating) : Prop := beats g D d c (fst x) (snd x) (fst y) (snd y).

Lemma util_bt x y : rated x -> rated y -> util_gt (util x) (util y) = true <-> bt x y.
Proof.
  intros (X1 & X2 & X3 & X4) (Y1 & Y2 & Y3 & Y4). unfold util, bt, beats, utilisation_of. destruct g.
  - rewrite !statistics_spec by assumption. cbn [util_gt]. unfold spread. rewrite orb_true_iff, andb_true_iff, !Z.ltb_lt, Z.eqb_eq.
    set (n1 := Z.of_nat _). set (n2 := Z.of_nat _). reflexivity.
  - cbn [util_gt]. rewrite !totald_encode, Z.ltb_lt. set (k1 := Z.of_nat (snd x)). set (k2 := Z.of_nat (snd y)). set (a1 := load d (fst x)). set (a2 := load d (fst y)).
    assert (Hk1 : 0 < k1) by (unfold k1; lia). assert (Hk2 : 0 < k2) by (unfold k2; lia). clearbody k1 k2 a1 a2. clear - Hc Hk1 Hk2.
    assert (P : 0 < k1 * k2 * (c * c * c)) by (repeat apply Z.mul_pos_pos; assumption).
    replace (a2 * (k2 * c) * (k1 * c * (k1 * c))) with ((k1 * k2 * (c * c * c)) * (a2 * k1)) by ring.
    replace (a1 * (k1 * c) * (k2 * c * (k2 * c))) with ((k1 * k2 * (c * c * c)) * (a1 * k2)) by ring.
    rewrite <- Z.mul_lt_mono_pos_l by exact P. reflexivity.
  - cbn [util_gt]. rewrite !penalty_spec by assumption. apply Z.ltb_lt.
Qed.

Lemma frac_trans a1 b1 a2 b2 a3 b3 : 0 < b1 -> 0 < b2 -> 0 < b3 -> a2 * b1 < a1 * b2 -> a3 * b2 < a2 * b3 -> a3 * b1 < a1 * b3.
Proof. intros. apply (Z.mul_lt_mono_pos_r b2); [assumption|]. nia. Qed.
Lemma frac_trans_le a1 b1 a2 b2 a3 b3 : 0 < b1 -> 0 < b2 -> 0 < b3 -> a2 * b1 <= a1 * b2 -> a3 * b2 <= a2 * b3 -> a3 * b1 <= a1 * b3.
Proof. intros. apply (Z.mul_le_mono_pos_r _ _ b2); [assumption|]. nia. Qed.
Lemma frac_trans_lt a1 b1 a2 b2 a3 b3 : 0 < b1 -> 0 < b2 -> 0 < b3 -> a2 * b1 <= a1 * b2 -> a3 * b2 < a2 * b3 -> a3 * b1 < a1 * b3.
Proof. intros. apply (Z.mul_lt_mono_pos_r b2); [assumption|]. nia. Qed.
Lemma frac_trans_lt2 a1 b1 a2 b2 a3 b3 : 0 < b1 -> 0 < b2 -> 0 < b3 -> a2 * b1 < a1 * b2 -> a3 * b2 <= a2 * b3 -> a3 * b1 < a1 * b3.
Proof. intros. apply (Z.mul_lt_mono_pos_r b2); [assumption|]. nia. Qed.
Lemma frac_trans_eq a1 b1 a2 b2 a3 b3 : 0 < b1 -> 0 < b2 -> 0 < b3 -> a1 * b2 = a2 * b1 -> a2 * b3 = a3 * b2 -> a1 * b3 = a3 * b1.
Proof. intros. apply (Z.mul_reg_r _ _ b2); [lia|]. nia. Qed.

Lemma bt_trans x y z : rated x -> rated y -> rated z -> bt x y -> bt y z -> bt x z.
Proof.
  intros (_ & _ & X3 & X4) (_ & _ & Y3 & Y4) (_ & _ & Z3 & Z4). unfold bt, beats. destruct g.
  - set (n1 := Z.of_nat (length (fst x))). set (n2 := Z.of_nat (length (fst y))). set (n3 := Z.of_nat (length (fst z))).
    assert (0 < n1 /\ 0 < n2 /\ 0 < n3) as (P1 & P2 & P3) by (unfold n1, n2, n3; lia). clearbody n1 n2 n3.
    assert (Q1 : 0 < n1 * n1) by nia. assert (Q2 : 0 < n2 * n2) by nia. assert (Q3 : 0 < n3 * n3) by nia.
    generalize (spread d (fst x)) (spread d (fst y)) (spread d (fst z)) (load d (fst x)) (load d (fst y)) (load d (fst z)). intros s1 s2 s3 l1 l2 l3.
    intros [A|[A A']] [B|[B B']].
    + left. apply (frac_trans s3 (n3 * n3) s2 (n2 * n2) s1 (n1 * n1)); assumption.
    + left. apply (frac_trans_lt s3 (n3 * n3) s2 (n2 * n2) s1 (n1 * n1)); try assumption. lia.
    + left. apply (frac_trans_lt2 s3 (n3 * n3) s2 (n2 * n2) s1 (n1 * n1)); try assumption. lia.
    + right. split; [apply (frac_trans_eq s1 (n1 * n1) s2 (n2 * n2) s3 (n3 * n3)); assumption|]. apply (frac_trans l1 n1 l2 n2 l3 n3); assumption.
  - apply frac_trans; lia.
  - lia.
Qed.
End Criteria.

Lemma util_gt_false x y : util_gt x y = false <-> ~ (util_gt x y = true).
Proof. destruct (util_gt x y); intuition congruence. Qed.

(** ** The heuristic *)
Section Tyagi.
Variables ceps seps : Z.
Variable N : nat.
Variable D : matrix.
Variable d : demands.
Variables C L : limit.
Variables only_large try_all : bool.
Variable g : grouping.
Variable f : tsp.
Hypothesis HN : (2 <= N)%nat.
Hypothesis Hself : self_first N D.
Notation feas := (feasible D d C L ceps seps).
Notation grp ends fb := (grouped N D d C L ceps seps fb ends try_all).
Notation fuel0 := (S (ty_mu N ty_start)).
Notation group fuel ends fb := (ty_group ceps seps N D d C L try_all fuel ends fb).

(** The customers of [fb] left out. *)
Definition part (fb : list nat) (rs : list (list nat)) : Prop :=
  Permutation (concat rs) (filter (allowed fb) (seq 1 (N - 1))) /\ Forall (fun r => r <> []) rs /\ (forall r, In r rs -> (2 <= length r)%nat -> feas r).

Lemma group_run ends fb : exists rs pts, grp ends fb rs /\ part fb rs /\ Forall (ty_passed N D d C L ceps seps fb ends try_all ty_start) pts /\
  forall fuel, (fuel0 <= fuel)%nat -> group fuel ends fb = Some (match rs with [] => None | _ => Some (encode rs) end, pts).
Proof.
  destruct (ty_grouping_run N D d C L ceps seps fb ends try_all ltac:(lia) Hself) as (st & pts & Hs & V & Hno & Hp & Hrun).
  exists (ty_routes st), pts. split; [exists st; auto|]. split; [|split; [exact Hp|intros fuel Hfu; unfold ty_group; rewrite (Hrun fuel Hfu); destruct (ty_routes st); reflexivity]]. split; [exact (ty_covers N D d C L ceps seps fb ltac:(lia) st V Hno)|]. split; [eapply ty_routes_nonempty; exact V|].
  eapply ty_routes_feas. exact V.
Qed.

Lemma part_customers fb rs : part fb rs -> Forall customers_only rs.
Proof.
  intros (H & _). apply Forall_forall. intros r Hr. apply Forall_forall. intros x Hx E. subst x.
  assert (Hi : In 0%nat (concat rs)) by (apply in_concat; eauto). eapply Permutation_in in Hi; [|exact H]. apply filter_In in Hi as [Hi _]. apply in_seq in Hi. lia.
Qed.

Lemma part_all rs : part [] rs -> covers N rs.
Proof.
  intros (H & _). unfold covers. etransitivity; [exact H|].
  assert (E : forall l, filter (allowed []) l = l) by (induction l as [|x l IH]; [reflexivity|cbn; now f_equal]). now rewrite E.
Qed.

Lemma part_one x rs : (1 <= x < N)%nat -> part [x] rs -> covers N (rs ++ [[x]]).
Proof.
  intros Hx (H & _). unfold covers. rewrite concat_app. cbn [concat app]. rewrite H.
  apply NoDup_Permutation; [|apply seq_NoDup|].
  - apply NoDup_app_intro; [apply NoDup_filter, seq_NoDup|repeat constructor; easy|]. intros y Hy [<-|[]]. apply filter_In in Hy as [_ Hy]. apply allowed_spec in Hy. apply Hy. now left.
  - intros y. rewrite in_app_iff, filter_In, in_seq. cbn [In]. rewrite allowed_spec. cbn [In]. destruct (Nat.eq_dec x y); split; intros; intuition lia.
Qed.

Lemma alone_feas : served_alone N D d C L ceps seps -> forall rs, covers N rs -> Forall (fun r => r <> []) rs ->
  (forall r, In r rs -> (2 <= length r)%nat -> feas r) -> serves N D d C L ceps seps rs.
Proof.
  intros Ha rs Hcov Hne Hf. split; [exact Hcov|]. split; [exact Hne|]. apply Forall_forall. intros r Hr.
  apply (single_or_more N D d C L ceps seps ltac:(lia)); [exact Ha| | |now apply Hf].
  - rewrite Forall_forall in Hne. now apply Hne.
  - intros j Hj. assert (H : In j (seq 1 (N - 1))) by (eapply Permutation_in; [exact Hcov|]; apply in_concat; eauto). apply in_seq in H. lia.
Qed.

Lemma part_serves rs : served_alone N D d C L ceps seps -> part [] rs -> serves N D d C L ceps seps rs.
Proof. intros Ha H. apply alone_feas; [exact Ha|now apply part_all|apply H|apply H]. Qed.
Lemma part_one_serves x rs : served_alone N D d C L ceps seps -> (1 <= x < N)%nat -> part [x] rs -> serves N D d C L ceps seps (rs ++ [[x]]).
Proof.
  intros Ha Hx H. apply alone_feas; [exact Ha|now apply part_one| |].
  - apply Forall_app. split; [apply H|repeat constructor; discriminate].
  - intros r Hr Hl. apply in_app_iff in Hr as [Hr|[<-|[]]]; [now apply H|cbn in Hl; lia].
Qed.

Lemma count_routes rs : Forall customers_only rs -> (count_occ Nat.eq_dec (encode rs) 0 - 1)%nat = length rs.
Proof.
  intros H. unfold encode. cbn [count_occ]. destruct (Nat.eq_dec 0 0); [|easy]. cbn [Nat.sub]. rewrite Nat.sub_0_r.
  induction H as [|r rs Hr _ IH]; [reflexivity|]. cbn [flat_map length]. rewrite !count_occ_app, IH. cbn.
  assert (E : count_occ Nat.eq_dec r 0%nat = 0%nat) by (apply count_occ_not_In; intros Hi; unfold customers_only in Hr; rewrite Forall_forall in Hr; now apply (Hr 0%nat)). rewrite E. reflexivity.
Qed.

Lemma encode_more rs x : encode rs ++ [x; 0%nat] = encode (rs ++ [[x]]).
Proof. rewrite P_nn2.encode_snoc. reflexivity. Qed.

(** ** The candidates *)
Section Candidates.
Variable c : Z.
Hypothesis EC : C = Some c.
Hypothesis Hc : 0 < c.
Hypothesis d0 : d 0%nat = 0.
Hypothesis Ha : served_alone N D d C L ceps seps.
Hypothesis HN3 : (3 <= N)%nat.
Variable fuel : nat.
Hypothesis Hfuel : (fuel0 <= fuel)%nat.
Variable gr : nat -> list (list nat).
Hypothesis Hgr : forall x, (1 <= x < N)%nat -> part [x] (gr x) /\ exists pts, group fuel false [x] = Some (Some (encode (gr x)), pts).

Lemma gr_nonempty x : (1 <= x < N)%nat -> (1 <= length (gr x))%nat.
Proof.
  intros Hx. destruct (Hgr x Hx) as ((HP & _) & _). destruct (gr x) as [|r rs]; [|cbn; lia]. exfalso. cbn in HP.
  assert (Hy : exists y, (1 <= y < N)%nat /\ y <> x) by (destruct (Nat.eq_dec x 1); [exists 2%nat|exists 1%nat]; lia). destruct Hy as (y & Hy & Hne).
  assert (Hi : In y []); [|destruct Hi]. eapply Permutation_in; [symmetry; exact HP|]. apply filter_In. split; [apply in_seq; lia|]. apply allowed_spec. cbn. intuition congruence.
Qed.

Variable first : list (list nat).
Hypothesis Hfirst : part [] first.
Hypothesis Hfirst1 : (1 <= length first)%nat.
Notation rt x := (gr x, S (length (gr x))).
Notation rt0 := (first, length first).
Notation beat := (bt g D d c).
Definition considered (x : nat) : Prop := (S (length (gr x)) <= length first)%nat.

(** What has been chosen. *)
Definition choice (tried : list nat) (r : rating) (rs : list (list nat)) : Prop :=
  ((r = rt0 /\ rs = first) \/ (exists x, In x tried /\ considered x /\ r = rt x /\ rs = gr x ++ [[x]] /\ beat r rt0)) /\
  forall z, In z tried -> considered z -> ~ beat (rt z) r.

Lemma rated_gr x : (1 <= x < N)%nat -> rated (rt x).
Proof.
  intros Hx. destruct (Hgr x Hx) as [Hp _]. split; [eapply part_customers; exact Hp|]. split; [apply Hp|]. cbn [fst snd]. split; [now apply gr_nonempty|lia].
Qed.
Lemma rated_first : rated rt0.
Proof. split; [eapply part_customers; exact Hfirst|]. split; [apply Hfirst|]. cbn [fst snd]. lia. Qed.

Lemma choice_rated tried r rs : (forall x, In x tried -> (1 <= x < N)%nat) -> choice tried r rs -> rated r.
Proof. intros Hin ([(-> & _)|(x & Hx & _ & -> & _)] & _); [apply rated_first|apply rated_gr; auto]. Qed.

Lemma ty_try_spec cands : forall tried r rs sols, (forall x, In x (tried ++ cands) -> (1 <= x < N)%nat) -> choice tried r rs ->
  Forall (fun s => exists t, s = encode t /\ serves N D d C L ceps seps t /\ (length t <= length first)%nat) (encode rs :: sols) ->
  exists r' rs' sols', ty_try ceps seps N D d C L try_all g fuel c (length first) cands (util g D d c r) (encode rs :: sols) = Some (Some (encode rs' :: sols')) /\
    choice (tried ++ cands) r' rs' /\
    Forall (fun s => exists t, s = encode t /\ serves N D d C L ceps seps t /\ (length t <= length first)%nat) (encode rs' :: sols').
Proof.
  induction cands as [|x t IH]; intros tried r rs sols Hin Hch Hall; [exists r, rs, sols; rewrite app_nil_r; auto|].
  cbn [ty_try]. assert (Hx : (1 <= x < N)%nat) by (apply Hin; apply in_or_app; right; now left).
  destruct (Hgr x Hx) as [Hp [pts Erun]]. rewrite Erun.
  assert (Hcust := part_customers _ _ Hp).
  assert (EcK : (count_occ Nat.eq_dec (encode (gr x)) 0 - 1 + 1)%nat = S (length (gr x))) by (rewrite count_routes by exact Hcust; lia).
  rewrite EcK.
  assert (Hin' : forall y, In y ((tried ++ [x]) ++ t) -> (1 <= y < N)%nat) by (intros y Hy; apply Hin; rewrite <- app_assoc in Hy; exact Hy).
  assert (Hrt : rated r) by (apply (choice_rated tried r rs); [intros y Hy; apply Hin; apply in_or_app; now left|exact Hch]).
  replace (tried ++ x :: t) with ((tried ++ [x]) ++ t) by (now rewrite <- app_assoc).
  destruct Hch as [Hch1 Hch2].
  destruct (Nat.ltb_spec (length first) (S (length (gr x)))) as [Hbig|Hok].
  - apply IH; [exact Hin'| |exact Hall]. split.
    + destruct Hch1 as [H|(y & Hy & H)]; [now left|]. right. exists y. split; [apply in_or_app; now left|exact H].
    + intros z Hz Hcz. apply in_app_iff in Hz as [Hz|[<-|[]]]; [auto|]. unfold considered in Hcz. lia.
  - replace (S (length (gr x)) - 1)%nat with (length (gr x)) by lia.
    change (utilisation_of g (encode (gr x)) D d c (length (gr x)) (S (length (gr x)))) with (util g D d c (rt x)).
    assert (Hrx := rated_gr x Hx). assert (Hub := util_bt g D d c d0 Hc _ _ Hrx Hrt).
    destruct (util_gt (util g D d c (rt x)) (util g D d c r)) eqn:Eu.
    + assert (Hb : beat (rt x) r) by (exact (proj1 Hub eq_refl)). rewrite encode_more. apply IH; [exact Hin'| |].
      * split.
        -- right. exists x. split; [apply in_or_app; right; now left|]. split; [exact Hok|]. split; [reflexivity|]. split; [reflexivity|].
           destruct Hch1 as [(-> & _)|(y & Hy & _ & _ & _ & Hy0)]; [exact Hb|]. eapply bt_trans; [exact Hrx|exact Hrt|exact rated_first|exact Hb|exact Hy0].
        -- intros z Hz Hcz Hbz. apply in_app_iff in Hz as [Hz|[<-|[]]].
           ++ apply (Hch2 z Hz Hcz). eapply bt_trans; [apply rated_gr; apply Hin; apply in_or_app; now left|exact Hrx|exact Hrt|exact Hbz|exact Hb].
           ++ assert (Hss := proj2 (util_bt g D d c d0 Hc _ _ Hrx Hrx) Hbz). clear - Hss. destruct (util g D d c (rt x)) as [K s q|a b|p]; cbn [util_gt] in Hss; lia.
      * constructor; [|exact Hall]. exists (gr x ++ [[x]]). split; [reflexivity|]. split; [now apply part_one_serves|]. rewrite app_length. cbn. lia.
    + apply IH; [exact Hin'| |exact Hall]. split.
      * destruct Hch1 as [H|(y & Hy & H)]; [now left|]. right. exists y. split; [apply in_or_app; now left|exact H].
      * intros z Hz Hcz. apply in_app_iff in Hz as [Hz|[<-|[]]]; [auto|]. intros H. apply (proj2 Hub) in H. discriminate.
Qed.
End Candidates.
End Tyagi.
