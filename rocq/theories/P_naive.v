(** * The naive local search: the operators *)
From Verif Require Import Spec Spec_ls Spec_inter PyBase M_util M_intra M_naive Spec_naive P_base P_scan P_intra.
From Coq Require Import ZifyBool ZifyNat Lia Arith List Permutation.
Import ListNotations.
Local Open Scope Z_scope.

(** ** The constraint check *)
Section Check.
Variables (ceps eps : Z) (D : matrix) (d : demands) (C L : limit).
Hypothesis HD : nonneg_matrix D.
Hypothesis Hd : forall n, 0 <= d n.
Hypothesis HC : within C ceps 0.

Lemma exceeds_within lim e x : exceeds lim e x = false <-> within lim e x.
Proof. unfold exceeds, truthy, within. destruct lim as [c|]; [|tauto]. destruct (Z.eqb_spec c 0); [tauto|]. destruct (Z.ltb_spec c (x - e)); split; intros; try lia; try discriminate; auto. Qed.
Lemma within_le lim e x y : within lim e y -> x <= y -> within lim e x.
Proof. unfold within. destruct lim as [c|]; [|tauto]. intros H1 H2 H3. specialize (H1 H3). lia. Qed.
Lemma path_nonneg l : 0 <= path_cost D l.
Proof. induction l as [|x [|y l] IH]; [cbn; lia|cbn; lia|]. rewrite path_cost_cons2. pose proof (HD x y). lia. Qed.
Lemma demand_nonneg l : 0 <= demand d l.
Proof. unfold demand, sumZ. induction l as [|x l IH]; cbn [map fold_right]; [lia|]. pose proof (Hd x). lia. Qed.
Lemma demand_cons x l : demand d (x :: l) = d x + demand d l.
Proof. reflexivity. Qed.

Lemma unset_within lim e x : truthy lim = None -> within lim e x.
Proof. unfold truthy, within. destruct lim as [c|]; [|tauto]. destruct (Z.eqb_spec c 0); [tauto|discriminate]. Qed.

(** One route, from the middle *)
Lemma check_route : forall r t p c l, customers_only r -> within C ceps c ->
  (constraint_check ceps eps D d C L (r ++ 0%nat :: t) (Some p) c l = true <->
   within C ceps (c + demand d r) /\ within L eps (l + path_cost D (p :: r ++ [0%nat])) /\
   constraint_check ceps eps D d C L t (Some 0%nat) 0 0 = true).
Proof.
  induction r as [|n r IH]; intros t p c l Hr Hc.
  - cbn [app constraint_check Nat.eqb negb andb]. rewrite path_cost_cons2, path_cost_one, Z.add_0_r. unfold demand. cbn [map sumZ fold_right]. rewrite Z.add_0_r.
    destruct (truthy L) eqn:EL.
    + destruct (exceeds L eps (l + D p 0%nat)) eqn:E.
      * split; [discriminate|]. intros (_ & H & _). apply exceeds_within in H. congruence.
      * apply exceeds_within in E. tauto.
    + pose proof (unset_within L eps l EL) as W. pose proof (unset_within L eps (l + D p 0%nat) EL) as W2. apply exceeds_within in W. rewrite W. tauto.
  - inversion Hr as [|? ? Hn Hr']; subst. cbn [app constraint_check]. replace (Nat.eqb n 0) with false by (symmetry; apply Nat.eqb_neq; assumption).
    cbn [negb andb]. rewrite path_cost_cons2, demand_cons.
    pose proof (demand_nonneg r) as P1. pose proof (path_nonneg (n :: r ++ [0%nat])) as P2.
    set (c' := match truthy C with Some _ => c + d n | None => c end).
    assert (EC : within C ceps c' <-> within C ceps (c + d n)).
    { unfold c'. destruct (truthy C) eqn:E; [tauto|]. split; intros _; apply unset_within; assumption. }
    assert (EC2 : within C ceps (c' + demand d r) <-> within C ceps (c + (d n + demand d r))).
    { unfold c'. destruct (truthy C) eqn:E; [rewrite Z.add_assoc; tauto|]. split; intros _; apply unset_within; assumption. }
    destruct (exceeds C ceps c') eqn:E1.
    + split; [discriminate|]. intros (H & _). apply EC2 in H. assert (W : within C ceps c') by (eapply within_le; [exact H|lia]). apply exceeds_within in W. congruence.
    + apply exceeds_within in E1. set (l' := match truthy L with Some _ => l + D p n | None => l end).
      assert (EL2 : forall x, within L eps (l' + x) <-> within L eps (l + (D p n + x))).
      { intros x. unfold l'. destruct (truthy L) eqn:E; [rewrite Z.add_assoc; tauto|]. split; intros _; apply unset_within; assumption. }
      destruct (exceeds L eps l') eqn:E2.
      * split; [discriminate|]. intros (_ & H & _). apply EL2 in H. assert (W : within L eps l') by (eapply within_le; [exact H|lia]). apply exceeds_within in W. congruence.
      * rewrite (IH t n c' l' Hr' E1), EC2, EL2. tauto.
Qed.
Lemma check_rest : forall rs, Forall customers_only rs ->
  (constraint_check ceps eps D d C L (flat_map (fun r => r ++ [0%nat]) rs) (Some 0%nat) 0 0 = true <-> Forall (feasible D d C L ceps eps) rs).
Proof.
  induction rs as [|r rs IH]; intros H; [cbn; split; auto|]. inversion H as [|? ? H1 H2]; subst. cbn [flat_map]. rewrite <- app_assoc. cbn [app].
  rewrite check_route by assumption. rewrite IH by assumption. unfold feasible at 2. split.
  - intros (A & B & F). constructor; [|exact F]. split; [exact A|exact B].
  - intros F. inversion F as [|? ? (A & B) F2]; subst. auto.
Qed.
Lemma check_spec rs : Forall customers_only rs -> (naive_constraint_check ceps eps D d C L (encode rs) = true <-> Forall (feasible D d C L ceps eps) rs).
Proof.
  intros H. unfold naive_constraint_check, encode. cbn [constraint_check Nat.eqb negb andb].
  rewrite <- (check_rest rs H). tauto.
Qed.
Lemma check_limits s : (exists rs, s = encode rs /\ Forall customers_only rs) -> (naive_constraint_check ceps eps D d C L s = true <-> keeps_limits D d C L ceps eps s).
Proof.
  intros (rs & -> & H). rewrite (check_spec rs H). split; [intros F; exists rs; auto|].
  intros (rs' & E & H' & F). apply (check_spec rs H). rewrite E. apply (check_spec rs' H'). exact F.
Qed.
End Check.

(** ** Scans in which a change may be no change *)
Lemma scan_contract0 (eps : Z) (first : bool) (cands : list (Z * list nat)) (b0 cur : Z) (cost : list nat -> Z) (nbr : list nat -> Prop) :
  0 <= eps -> b0 <= 0 ->
  (forall dl m, In (dl, m) cands -> dl = cost m - cur /\ (nbr m \/ dl = 0)) ->
  (forall r, nbr r -> cost r = cur \/ exists dl m, In (dl, m) cands /\ dl = cost r - cur) ->
  finds_improvement cost nbr cur b0 eps (negb first)
    (match fst (scan eps first cands (None, b0)) with (Some m, bd) => Some (m, bd) | (None, _) => None end).
Proof.
  intros He Hb Hs Hc. pose proof (scan_spec eps first cands b0 He) as H.
  destruct (fst (scan eps first cands (None, b0))) as [[m|] bd]; unfold scan_post in H; cbn [fst snd] in H; cbn [finds_improvement].
  - destruct H as (H1 & H2 & H3 & _). destruct (Hs _ _ H1) as (E & [Hn|E0]); [|lia]. split; [exact Hn|]. split; [exact E|]. split; [exact H2|].
    intros Hf r Hr. destruct (Hc r Hr) as [Ec|(dl & m' & Hin & Edl)]; [lia|]. destruct first; [discriminate|]. specialize (H3 eq_refl dl m' Hin). lia.
  - destruct H as (_ & H2). intros r Hr. destruct (Hc r Hr) as [Ec|(dl & m' & Hin & Edl)]; [lia|]. specialize (H2 dl m' Hin). lia.
Qed.
Lemma answer_scan (s : option (list nat) * Z) : (forall m, fst s = Some m -> m <> []) ->
  answered (answer s) (match s with (Some m, bd) => Some (m, bd) | (None, _) => None end).
Proof. destruct s as [[[|x l]|] b]; intros H; [destruct (H [] eq_refl eq_refl)|reflexivity|reflexivity]. Qed.
Lemma scan_fst {M} (eps : Z) first (cands : list (Z * M)) b0 m : 0 <= eps -> fst (fst (scan eps first cands (None, b0))) = Some m -> exists dl, In (dl, m) cands.
Proof. intros He H. pose proof (scan_spec eps first cands b0 He) as P. unfold scan_post in P. rewrite H in P. eexists. apply P. Qed.
Lemma scan_answer (eps : Z) (first : bool) (cands : list (Z * list nat)) (b0 cur : Z) (cost : list nat -> Z) (nbr : list nat -> Prop) :
  0 <= eps -> b0 <= 0 ->
  (forall dl m, In (dl, m) cands -> dl = cost m - cur /\ (nbr m \/ dl = 0) /\ m <> []) ->
  (forall r, nbr r -> cost r = cur \/ exists dl m, In (dl, m) cands /\ dl = cost r - cur) ->
  exists res, answered (answer (fst (scan eps first cands (None, b0)))) res /\ finds_improvement cost nbr cur b0 eps (negb first) res.
Proof.
  intros He Hb Hs Hc. eexists. split; [apply answer_scan|apply scan_contract0; [assumption..| |assumption]].
  - intros m Hm. apply scan_fst in Hm; [|assumption]. destruct Hm as (dl & Hin). apply (Hs _ _ Hin).
  - intros dl m Hin. destruct (Hs _ _ Hin) as (A & B & _). auto.
Qed.

(** ** Lists that start and end at the depot *)
Lemma encode_ends rs : rs <> [] -> exists m, encode rs = 0%nat :: m ++ [0%nat].
Proof.
  intros H. destruct (exists_last H) as (q & r & ->). rewrite encode_app. cbn [encode flat_map tl]. rewrite app_nil_r.
  exists (flat_map (fun r => r ++ [0%nat]) q ++ r). unfold encode. cbn [app]. rewrite app_assoc. reflexivity.
Qed.
Lemma ends_encode m : exists rs, Forall customers_only rs /\ encode rs = 0%nat :: m ++ [0%nat] /\ rs <> [].
Proof.
  destruct (delimited_encode m) as (rs & H & E). exists rs. split; [exact H|]. split; [symmetry; exact E|].
  intros ->. cbn in E. injection E as E. destruct m; discriminate.
Qed.
(** Both parts not empty, the rest between the depots *)
Lemma ends_parts (l3 l4 m : list nat) n : l3 <> [] -> l4 <> [] -> l3 ++ l4 = 0%nat :: m ++ [0%nat] -> exists m', l3 ++ n :: l4 = 0%nat :: m' ++ [0%nat].
Proof.
  intros H3 H4 E. destruct l3 as [|x l3]; [congruence|]. destruct (exists_last H4) as (l4' & y & ->). cbn [app] in *. injection E as -> E.
  rewrite app_assoc in E. apply app_inj_tail in E. destruct E as (E & ->). exists (l3 ++ n :: l4'). rewrite <- app_assoc. reflexivity.
Qed.
Lemma mid_ends (l1 l2 m : list nat) n : n <> 0%nat -> l1 ++ n :: l2 = 0%nat :: m ++ [0%nat] -> exists a b, l1 = 0%nat :: a /\ l2 = b ++ [0%nat] /\ m = a ++ n :: b.
Proof.
  intros Hn E. destruct l1 as [|x a]; cbn [app] in E; [injection E as -> E; congruence|]. injection E as -> E.
  destruct (list_eq_dec Nat.eq_dec l2 []) as [->|H2].
  - apply app_inj_tail in E. destruct E as (_ & E). congruence.
  - destruct (exists_last H2) as (b & y & ->). exists a, b. change (n :: b ++ [y]) with ((n :: b) ++ [y]) in E. rewrite app_assoc in E.
    apply app_inj_tail in E. destruct E as (E & ->). auto.
Qed.
