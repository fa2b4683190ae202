(** * Route-first-cluster-second: the routes *)
From Verif Require Import Spec Spec_inter Spec_savings Spec_rfcs PyBase M_util M_psavings M_rfcs P_base P_nn2 P_rfcs.
Require Import Sorted ZifyBool ZifyNat Lia.

Fixpoint take_while {A} (p : A -> bool) (l : list A) : list A :=
  match l with [] => [] | x :: t => if p x then x :: take_while p t else [] end.

Lemma take_while_in p k m : forall x, In x (take_while p (seq k m)) <-> (k <= x < k + m)%nat /\ forall y, (k <= y <= x)%nat -> p y = true.
Proof.
  revert k. induction m as [|m IH]; intros k x; cbn [seq take_while]; [split; [easy|lia]|].
  destruct (p k) eqn:E.
  - cbn [In]. rewrite IH. split.
    + intros [<-|[H1 H2]]; [split; [lia|]; intros y Hy; replace y with k by lia; exact E|]. split; [lia|]. intros y Hy. destruct (Nat.eq_dec y k) as [->|]; [exact E|]. apply H2. lia.
    + intros [H1 H2]. destruct (Nat.eq_dec k x); [now left|]. right. split; [lia|]. intros y Hy. apply H2. lia.
  - split; [easy|]. intros [H1 H2]. rewrite H2 in E by lia. discriminate.
Qed.

Lemma app_same {A} (x y x' y' : list A) : x ++ y = x' ++ y' -> length x = length x' -> x = x' /\ y = y'.
Proof. revert x'. induction x as [|a x IH]; intros [|b x'] E Hl; cbn in *; try discriminate; [auto|]. injection E as -> E. destruct (IH x' E ltac:(lia)) as [-> ->]. auto. Qed.

Lemma demand_one d x : demand d [x] = d x.
Proof. unfold demand, sumZ. cbn. lia. Qed.

Section Tour.
Variable N : nat.
Variable D : matrix.
Variable d : demands.
Variables C L : limit.
Variables ceps seps : Z.
Variable const : Z.
Variable f g : tsp.
Variable tour gt : list nat.
Hypothesis HN : (3 <= N)%nat.
Hypothesis Hgt : giant_tour N tour gt.
Hypothesis Hf : solver N D f.
Hypothesis Hg : improver N D g.
Hypothesis Hgrow : grows f tour.
Hypothesis Halone : served_alone N D d C L ceps seps.
Hypothesis Hconst : 0 <= const.

Definition n := (N - 1)%nat.
Notation adv := (adv n).
Notation len := (len n).
Lemma n2 : (2 <= n)%nat.
Proof. unfold n. lia. Qed.

Lemma tour_len : length tour = n.
Proof. destruct Hgt as [H _]. apply Permutation_length in H. now rewrite seq_length in H. Qed.
Lemma tour_nodup : NoDup tour.
Proof. destruct Hgt as [H _]. eapply Permutation_NoDup; [symmetry; exact H|apply seq_NoDup]. Qed.
Lemma tour_in j : In j tour <-> (1 <= j < N)%nat.
Proof.
  destruct Hgt as [H _]. split; intros Hj.
  - eapply Permutation_in in Hj; [|exact H]. apply in_seq in Hj. lia.
  - eapply Permutation_in; [symmetry; exact H|]. apply in_seq. lia.
Qed.
Lemma gt_nth v : (v < n)%nat -> nth v gt 0%nat = nth v tour 0%nat.
Proof. intros Hv. assert (Hl := tour_len). destruct Hgt as [_ [E|E]]; rewrite E; [reflexivity|]. apply app_nth1. rewrite Hl. exact Hv. Qed.
Lemma gt_gtl : rf_gtl gt = n.
Proof.
  assert (Hl := tour_len). assert (Hnd := tour_nodup). assert (H2 := n2). unfold rf_gtl. destruct Hgt as [_ [E|E]]; rewrite E.
  - destruct (Nat.eqb_spec (hd 0%nat tour) (last tour 0%nat)) as [E'|E']; [|exact Hl]. exfalso. clear E Hgt Hgrow.
    destruct tour as [|x [|y t]]; [cbn in Hl; lia|cbn in Hl; lia|]. cbn [hd] in E'. inversion Hnd as [|? ? Hx _]; subst. apply Hx. rewrite E'.
    change (last (x :: y :: t) 0%nat) with (last (y :: t) 0%nat). destruct (exists_last (l := y :: t) ltac:(discriminate)) as (l' & z & ->). rewrite last_last. apply in_or_app. right. now left.
  - rewrite last_last. destruct tour as [|x t]; [cbn in Hl; lia|]. cbn [hd app]. rewrite Nat.eqb_refl. cbn [length]. rewrite app_length. cbn [length] in *. lia.
Qed.

(** ** Consecutive customers *)
Definition seg (u l : nat) : list nat := map (fun t => nth (adv u t) tour 0%nat) (seq 1 l).

Lemma seg_length u l : length (seg u l) = l.
Proof. unfold seg. now rewrite map_length, seq_length. Qed.
Lemma seg_S u l : seg u (S l) = seg u l ++ [nth (adv u (S l)) tour 0%nat].
Proof. unfold seg. rewrite seq_S, map_app. reflexivity. Qed.
Lemma adv_adv u l t : (u < n)%nat -> (l + t <= n)%nat -> adv (adv u l) t = adv u (l + t).
Proof. intros. unfold P_rfcs.adv. ltbs. Qed.
Lemma seg_app u l1 l2 : (u < n)%nat -> (l1 + l2 <= n)%nat -> seg u (l1 + l2) = seg u l1 ++ seg (adv u l1) l2.
Proof.
  intros Hu. induction l2 as [|l2 IH]; intros Hl; [rewrite Nat.add_0_r; cbn; now rewrite app_nil_r|].
  rewrite <- plus_n_Sm, !seg_S, IH by lia. rewrite <- app_assoc. do 2 f_equal. rewrite adv_adv by lia. now rewrite plus_n_Sm.
Qed.
Lemma nth_seq_map (l : list nat) k m : (k + m <= length l)%nat -> map (fun t => nth t l 0%nat) (seq k m) = firstn m (skipn k l).
Proof.
  revert k. induction m as [|m IH]; intros k H; [reflexivity|]. cbn [seq map]. rewrite IH by lia.
  assert (E : skipn k l = nth k l 0%nat :: skipn (S k) l).
  { clear IH. revert k H. induction l as [|x l IHl]; intros [|k] H; cbn [length] in H; [lia|lia|reflexivity|]. cbn [skipn nth]. rewrite IHl by lia. reflexivity. }
  rewrite E. reflexivity.
Qed.
Lemma seg_full u : (u < n)%nat -> seg u n = skipn (S u) tour ++ firstn (S u) tour.
Proof.
  intros Hu. assert (Hl := tour_len). assert (H2 := n2). replace n with ((n - 1 - u) + S u)%nat at 1 by lia. rewrite seg_app by lia.
  f_equal.
  - unfold seg. rewrite (map_ext_in _ (fun t => nth (u + t) tour 0%nat)).
    2:{ intros t Ht. apply in_seq in Ht. f_equal. unfold P_rfcs.adv. ltbs. }
    rewrite <- (map_map (fun t => (u + t)%nat) (fun t => nth t tour 0%nat)).
    replace (map (fun t => (u + t)%nat) (seq 1 (n - 1 - u))) with (seq (S u) (n - 1 - u)).
    2:{ generalize (n - 1 - u)%nat as k. intros k. clear. change (S u) with (1 + u)%nat. induction k as [|k IH]; [reflexivity|]. rewrite !seq_S, map_app, <- IH. cbn. do 2 f_equal. lia. }
    rewrite nth_seq_map by lia. apply firstn_all2. rewrite skipn_length. lia.
  - unfold seg. replace (adv u (n - 1 - u)) with (n - 1)%nat by (unfold P_rfcs.adv; ltbs).
    rewrite (map_ext_in _ (fun t => nth (t - 1) tour 0%nat)).
    2:{ intros t Ht. apply in_seq in Ht. f_equal. unfold P_rfcs.adv. ltbs. }
    rewrite <- seq_shift, map_map. rewrite (map_ext _ (fun t => nth t tour 0%nat)) by (intros t; f_equal; lia).
    now rewrite nth_seq_map by lia.
Qed.
Lemma seg_rotation u : (u < n)%nat -> rotation tour (seg u n).
Proof. intros Hu. rewrite seg_full by exact Hu. exists (firstn (S u) tour), (skipn (S u) tour). split; [|reflexivity]. now rewrite firstn_skipn. Qed.
Lemma rotation_seg l : rotation tour l -> exists u, (u < n)%nat /\ l = seg u n.
Proof.
  intros (x & y & E & ->). assert (Hl := tour_len). assert (H2 := n2). destruct x as [|x0 x].
  - exists (n - 1)%nat. split; [lia|]. rewrite seg_full by lia. rewrite app_nil_r. cbn in E. subst y.
    replace (S (n - 1)) with (length tour) by lia. rewrite skipn_all, firstn_all. reflexivity.
  - exists (length x). assert (length (x0 :: x) + length y = n)%nat by (rewrite <- Hl, E, app_length; reflexivity). cbn [length] in H. split; [lia|]. rewrite seg_full by lia.
    change (S (length x)) with (length (x0 :: x)). rewrite E.
    rewrite skipn_app, skipn_all, Nat.sub_diag. rewrite firstn_app, firstn_all, Nat.sub_diag. cbn. now rewrite app_nil_r.
Qed.
Lemma rotation_perm l : rotation tour l -> Permutation l tour.
Proof. intros (x & y & -> & ->). apply Permutation_app_comm. Qed.
Lemma seg_prefix u l : (u < n)%nat -> (l <= n)%nat -> rotation tour (seg u l ++ seg (adv u l) (n - l)).
Proof. intros Hu Hl. rewrite <- seg_app by lia. replace (l + (n - l))%nat with n by lia. now apply seg_rotation. Qed.
Lemma seg_customers u l : (u < n)%nat -> (l <= n)%nat -> NoDup (seg u l) /\ forall j, In j (seg u l) -> (1 <= j < N)%nat.
Proof.
  intros Hu Hl. assert (P := rotation_perm _ (seg_prefix u l Hu Hl)). split.
  - assert (H : NoDup (seg u l ++ seg (adv u l) (n - l))) by (eapply Permutation_NoDup; [symmetry; exact P|apply tour_nodup]).
    clear P. induction (seg u l) as [|x t IH]; [constructor|]. cbn in H. inversion H as [|? ? Hx Ht]; subst. constructor; [|now apply IH]. intros Hi. apply Hx. apply in_or_app. now left.
  - intros j Hj. apply tour_in. eapply Permutation_in; [exact P|]. apply in_or_app. now left.
Qed.

(** ** Their routes *)
Lemma grown_snoc s x : grown f (s ++ [x]) = f (removelast (fst (grown f s)) ++ [x]).
Proof. unfold grown. now rewrite fold_left_app. Qed.
Lemma removelast_closed l : removelast (0%nat :: l ++ [0%nat]) = (0 :: l)%nat.
Proof. rewrite app_comm_cons. apply removelast_last. Qed.
Lemma grown_shape s : s <> [] -> NoDup s -> (forall j, In j s -> (1 <= j < N)%nat) ->
  exists l', grown f s = (0%nat :: l' ++ [0%nat], route_cost D l') /\ Permutation l' s.
Proof.
  induction s as [|x s IH] using rev_ind; intros Hne Hnd Hin; [contradiction|]. rewrite grown_snoc.
  destruct s as [|y s].
  - cbn [grown fold_left fst]. destruct (Hf [x]) as (l' & E & P); [discriminate|exact Hnd|exact Hin|]. exists l'. split; [exact E|exact P].
  - assert (Hnd' : NoDup (y :: s)).
    { apply NoDup_rev in Hnd. rewrite rev_app_distr in Hnd. cbn [rev app] in Hnd. inversion Hnd as [|? ? _ H]; subst. apply NoDup_rev in H. change (rev s ++ [y]) with (rev (y :: s)) in H. rewrite rev_involutive in H. exact H. }
    destruct IH as (l' & E & P); [discriminate|exact Hnd'|intros j Hj; apply Hin, in_or_app; now left|].
    rewrite E. cbn [fst]. rewrite removelast_closed, <- app_comm_cons.
    assert (P' : Permutation (l' ++ [x]) ((y :: s) ++ [x])) by now apply Permutation_app_tail.
    destruct (Hf (l' ++ [x])) as (l'' & E'' & P''); [now destruct l'|eapply Permutation_NoDup; [symmetry; exact P'|exact Hnd]|intros j Hj; apply Hin; eapply Permutation_in; [exact P'|exact Hj]|].
    exists l''. split; [exact E''|]. now rewrite P''.
Qed.

(** ** The arcs *)
Definition okb (u l : nat) : bool := negb (exceeds C ceps (demand d (seg u l))) && negb (exceeds L seps (grown_cost f (seg u l))).
Lemma okb_spec u l : okb u l = true <-> within C ceps (demand d (seg u l)) /\ within L seps (grown_cost f (seg u l)).
Proof. unfold okb. rewrite andb_true_iff, !negb_true_iff, !exceeds_within. reflexivity. Qed.
Definition arc (u l : nat) : option Z :=
  if (u <? n)%nat && (1 <=? l)%nat && (l <? n)%nat && forallb (okb u) (seq 1 l) then Some (grown_cost f (seg u l) + const) else None.
Lemma arc_spec u l z : arc u l = Some z <->
  ((u < n)%nat /\ (1 <= l < n)%nat /\ (forall y, (1 <= y <= l)%nat -> okb u y = true) /\ z = grown_cost f (seg u l) + const).
Proof.
  unfold arc. split.
  - destruct (_ && _) eqn:E; [|discriminate]. intros H. injection H as <-. rewrite !andb_true_iff, forallb_forall in E. destruct E as [[[E1 E2] E3] E4].
    split; [lia|]. split; [lia|]. split; [|reflexivity]. intros y Hy. apply E4, in_seq. lia.
  - intros (H1 & H2 & H3 & ->). assert (E : forallb (okb u) (seq 1 l) = true) by (apply forallb_forall; intros y Hy; apply in_seq in Hy; apply H3; lia).
    rewrite E. replace (u <? n)%nat with true by lia. replace (1 <=? l)%nat with true by lia. replace (l <? n)%nat with true by lia. reflexivity.
Qed.
Lemma arc_admissible u l z : arc u l = Some z <->
  ((u < n)%nat /\ (1 <= l < n)%nat /\ admissible d C L ceps seps f (seg u l) /\ z = grown_cost f (seg u l) + const).
Proof.
  rewrite arc_spec. split; intros (H1 & H2 & H3 & H4); (split; [exact H1|]; split; [exact H2|]; split; [|exact H4]).
  - intros x y E Hx. assert (Hl : (length x + length y = l)%nat) by (rewrite <- app_length, <- E; apply seg_length).
    rewrite <- Hl, seg_app in E by lia. apply app_same in E as [E _]; [|apply seg_length]. rewrite <- E. apply okb_spec, H3. destruct x; [contradiction|cbn [length] in *; lia].
  - intros y Hy. apply okb_spec. apply (H3 _ (seg (adv u y) (l - y))); [|destruct y; [lia|intros E; apply (f_equal (@length nat)) in E; now rewrite seg_length in E]].
    rewrite <- seg_app by lia. f_equal. lia.
Qed.
Lemma arc_dom u l x : arc u l = Some x -> (u < n)%nat /\ (1 <= l < n)%nat.
Proof. rewrite arc_spec. tauto. Qed.
Lemma seg_ne u l : (1 <= l)%nat -> seg u l <> [].
Proof. intros H E. apply (f_equal (@length nat)) in E. rewrite seg_length in E. cbn in E. lia. Qed.
Lemma arc_mono u l x l' : arc u l = Some x -> (1 <= l' <= l)%nat -> exists x', arc u l' = Some x' /\ 0 <= x' <= x.
Proof.
  rewrite arc_spec. intros (H1 & H2 & H3 & ->) Hl'. exists (grown_cost f (seg u l') + const).
  split; [apply arc_spec; split; [exact H1|]; split; [lia|]; split; [|reflexivity]; intros y Hy; apply H3; lia|].
  assert (E : seg u l = seg u l' ++ seg (adv u l') (l - l')) by (rewrite <- seg_app by lia; f_equal; lia).
  assert (H := Hgrow (seg u l') (seg (adv u l') (l - l')) (seg (adv u l) (n - l))). rewrite app_assoc, <- E in H.
  specialize (H (seg_prefix u l H1 ltac:(lia)) (seg_ne u l' ltac:(lia))). lia.
Qed.
Lemma arc_unit u : (u < n)%nat -> exists x, arc u 1 = Some x.
Proof.
  intros Hu. assert (H2 := n2). eexists. apply arc_spec. split; [exact Hu|]. split; [lia|]. split; [|reflexivity]. intros y Hy. replace y with 1%nat by lia. apply okb_spec.
  destruct (seg_customers u 1 Hu ltac:(lia)) as [Hnd Hin]. destruct (grown_shape (seg u 1) (seg_ne u 1 ltac:(lia)) Hnd Hin) as (l' & E & P).
  unfold grown_cost. rewrite E. cbn [snd]. assert (El : exists x, seg u 1 = [x]) by (eexists; reflexivity). destruct El as [x Ex]. rewrite Ex in *. apply Permutation_sym, Permutation_length_1_inv in P. subst l'.
  apply (Halone x). apply Hin. now left.
Qed.

(** ** The matrix *)
Lemma next_adv u : (u < n)%nat -> rf_next n u = adv u 1.
Proof. intros Hu. unfold rf_next, P_rfcs.adv. destruct (Nat.eqb_spec (S u) n); ltbs. Qed.
Lemma next_step u t : (u < n)%nat -> (t < n)%nat -> rf_next n (adv u t) = adv u (S t).
Proof. intros Hu Ht. assert (H := adv_lt n u t Hu ltac:(lia)). rewrite next_adv by exact H. rewrite adv_adv by lia. f_equal. lia. Qed.

Lemma row_spec u : (u < n)%nat -> forall k t cum, (t + k = n - 1)%nat -> (is_set C = true -> cum = demand d (seg u t)) -> (1 <= k)%nat ->
  forall fuel, (k <= fuel)%nat ->
  rf_row ceps seps d C L gt n const f u fuel (adv u (S t)) cum (fst (grown f (seg u t))) =
  map (fun l => (adv u l, grown_cost f (seg u l) + const)) (take_while (okb u) (seq (S t) k)).
Proof.
  intros Hu. induction k as [|k IH]; intros t cum Hk Hcum H1 fuel Hfuel; [lia|]. destruct fuel as [|fuel]; [lia|].
  cbn [rf_row seq take_while]. assert (Hv : (adv u (S t) < n)%nat) by (apply adv_lt; lia). rewrite gt_nth by exact Hv.
  assert (Eseg := seg_S u t).
  assert (EC : exceeds C ceps (cum + d (nth (adv u (S t)) tour 0%nat)) = exceeds C ceps (demand d (seg u (S t)))).
  { unfold exceeds, is_set in *. destruct (truthy C); [|reflexivity]. rewrite Hcum by reflexivity. rewrite Eseg, demand_app, demand_one. reflexivity. }
  rewrite EC. unfold okb at 1. destruct (exceeds C ceps (demand d (seg u (S t)))) eqn:E1; [reflexivity|]. cbn [negb andb].
  rewrite <- grown_snoc, <- Eseg. destruct (grown f (seg u (S t))) as [route' cost] eqn:Eg. assert (Ec : grown_cost f (seg u (S t)) = cost) by (unfold grown_cost; now rewrite Eg). rewrite Ec.
  destruct (exceeds L seps cost) eqn:E2; [reflexivity|]. cbn [negb map]. f_equal; [now rewrite Ec|].
  rewrite next_step by lia. destruct (Nat.eqb_spec (adv u (S (S t))) u) as [Eu|Eu].
  - assert (k = 0%nat) by (unfold P_rfcs.adv in Eu; revert Eu; ltbs). subst k. reflexivity.
  - assert (Hk0 : (1 <= k)%nat). { destruct k; [|lia]. exfalso. apply Eu. unfold P_rfcs.adv. ltbs. }
    replace route' with (fst (grown f (seg u (S t)))) by now rewrite Eg. apply IH; [lia| |exact Hk0|lia].
    intros HC. rewrite HC, (Hcum HC), Eseg, demand_app, demand_one. reflexivity.
Qed.

Notation entries := (rf_entries ceps seps d C L gt n const f).
Lemma entries_spec u v z : In (u, (v, z)) entries <-> c n arc u v = Some z.
Proof.
  assert (H2 := n2). unfold rf_entries. rewrite in_flat_map. split.
  - intros (u' & Hu & H). apply in_map_iff in H as (e & E & He). injection E as -> ->. unfold range in Hu. apply in_seq in Hu.
    rewrite next_adv in He by lia. change [0%nat; 0%nat] with (fst (grown f (seg u 0))) in He. rewrite (row_spec u ltac:(lia) (n - 1) 0) in He; [|lia|reflexivity|lia|lia].
    apply in_map_iff in He as (l & E & Hl). injection E as <- <-. apply take_while_in in Hl as [Hl1 Hl2].
    rewrite (c_adv n arc n2 arc_dom arc_mono) by lia. apply arc_spec. split; [lia|]. split; [lia|]. split; [exact Hl2|reflexivity].
  - intros H. apply (c_dom n arc n2 arc_dom arc_mono) in H as (Hu & Hv & Hne & Hl & H). apply arc_spec in H as (_ & _ & Ho & ->).
    exists u. split; [unfold range; apply in_seq; lia|]. apply in_map. rewrite next_adv by lia. change [0%nat; 0%nat] with (fst (grown f (seg u 0))).
    rewrite (row_spec u ltac:(lia) (n - 1) 0); [|lia|reflexivity|lia|lia]. apply in_map_iff. exists (len u v). rewrite adv_len by assumption. split; [reflexivity|].
    apply take_while_in. split; [lia|exact Ho].
Qed.
Lemma matrix_spec es : (forall u v z z', In (u, (v, z)) es -> In (u, (v, z')) es -> z = z') ->
  (forall u v z, fst (rf_matrix es) u v = Some z <-> In (u, (v, z)) es) /\ (forall u v, fst (rf_matrix es) u v <> None -> snd (rf_matrix es) u v = v).
Proof.
  induction es as [|e es IH] using rev_ind; intros Hfun; [split; [split; intros H; [discriminate|contradiction]|now cbn]|].
  destruct IH as [IH1 IH2]; [intros u v z z' H H'; apply (Hfun u v); apply in_or_app; now left|].
  unfold rf_matrix in *. rewrite fold_left_app. cbn [fold_left]. set (m := fold_left _ es fw_empty) in *. destruct e as [i [j x]]. unfold fw_set. cbn [fst snd]. split.
  - intros u v z. rewrite in_app_iff. cbn [In]. destruct (Nat.eq_dec u i) as [->|Hu]; [destruct (Nat.eq_dec v j) as [->|Hv]|].
    + rewrite upd2_same. split; [intros E; injection E as <-; auto|]. intros H. f_equal. apply (Hfun i j x z); apply in_or_app; [right; now left|]. destruct H as [H|H]; [now left|right; exact H].
    + rewrite upd2_other by now right. rewrite IH1. split; [now left|]. intros [H|[H|[]]]; [exact H|]. congruence.
    + rewrite upd2_other by now left. rewrite IH1. split; [now left|]. intros [H|[H|[]]]; [exact H|]. congruence.
  - intros u v. destruct (Nat.eq_dec u i) as [->|Hu]; [destruct (Nat.eq_dec v j) as [->|Hv]|].
    + now rewrite !upd2_same.
    + rewrite !upd2_other by now right. apply IH2.
    + rewrite !upd2_other by now left. apply IH2.
Qed.
Lemma matrix_is_c : (forall u v, fst (rf_matrix entries) u v = c n arc u v) /\ (forall u v, c n arc u v <> None -> snd (rf_matrix entries) u v = v).
Proof.
  destruct (matrix_spec entries) as [H1 H2]. { intros u v z z' H H'. apply entries_spec in H, H'. congruence. }
  assert (E : forall u v, fst (rf_matrix entries) u v = c n arc u v).
  { intros u v. destruct (c n arc u v) as [z|] eqn:Ec; [apply H1, entries_spec, Ec|]. destruct (fst (rf_matrix entries) u v) as [z|] eqn:Em; [|reflexivity]. apply H1, entries_spec in Em. congruence. }
  split; [exact E|]. intros u v H. apply H2. now rewrite E.
Qed.

(** ** The first smallest entry of the diagonal *)
Lemma argmin_spec m M : forall u s, (u < M)%nat -> fst m u u = Some s -> le_opt (fst m (argmin_diag M m) (argmin_diag M m)) s.
Proof.
  intros u s Hu Hs. unfold argmin_diag, range.
  assert (G : forall k b, (forall u s, (u < 1)%nat -> fst m u u = Some s -> le_opt (fst m b b) s) ->
    forall u s, (u < 1 + k)%nat -> fst m u u = Some s -> le_opt (fst m (fold_left (argmin_step m) (seq 1 k) b) (fold_left (argmin_step m) (seq 1 k) b)) s).
  { intros k b Hb. induction k as [|k IH]; [exact Hb|]. rewrite seq_S, fold_left_app. cbn [fold_left]. set (b' := fold_left _ _ b) in *. intros v z Hv Hz.
    unfold argmin_step. destruct (Nat.eq_dec v (1 + k)) as [->|Hne].
    - rewrite Hz. destruct (fst m b' b') as [y|] eqn:Eb; [destruct (Z.ltb_spec z y)|]; [exists z; split; [exact Hz|lia]|exists y; split; [exact Eb|lia]|exists z; split; [exact Hz|lia]].
    - destruct (IH v z ltac:(lia) Hz) as (y & Ey & Hy). rewrite Ey. destruct (fst m (1 + k) (1 + k))%nat as [x|] eqn:Ex; [destruct (Z.ltb_spec x y)|]; [exists x; split; [exact Ex|lia]|exists y; auto|exists y; auto]. }
  apply (G (M - 1)%nat 0%nat) with (u := u); [|lia|exact Hs]. intros v z Hv Hz. replace v with 0%nat in Hz by lia. exists z. split; [exact Hz|lia].
Qed.

(** ** Reading the routes back *)
Lemma route_spec u l : (u < n)%nat -> (1 <= l <= n)%nat -> forall k t, (t + k = l)%nat -> forall fuel, (k <= fuel)%nat ->
  rf_route false gt n f fuel (adv u t) (adv u l) (fst (grown f (seg u t))) = Some (fst (grown f (seg u l))).
Proof.
  intros Hu Hl. induction k as [|k IH]; intros t Hk fuel Hfuel.
  - replace t with l by lia. destruct (seg_customers u l Hu ltac:(lia)) as [Hnd Hin]. destruct (grown_shape _ (seg_ne u l ltac:(lia)) Hnd Hin) as (l' & E & P).
    assert (E2 : Nat.eqb (length (fst (grown f (seg u l)))) 2 || negb (Nat.eqb (adv u l) (adv u l)) = false).
    { rewrite Nat.eqb_refl, E. cbn [fst negb]. rewrite orb_false_r. apply Nat.eqb_neq. cbn [length]. rewrite app_length. apply Permutation_length in P. rewrite seg_length in P. cbn [length]. lia. }
    destruct fuel; cbn [rf_route]; rewrite E2; reflexivity.
  - destruct fuel as [|fuel]; [lia|]. cbn [rf_route].
    assert (E2 : Nat.eqb (length (fst (grown f (seg u t)))) 2 || negb (Nat.eqb (adv u t) (adv u l)) = true).
    { destruct t; [reflexivity|]. apply orb_true_iff. right. apply negb_true_iff, Nat.eqb_neq. unfold P_rfcs.adv. ltbs. }
    rewrite E2. rewrite next_step by lia. rewrite gt_nth by (apply adv_lt; lia). rewrite <- grown_snoc, <- seg_S. apply IH; lia.
Qed.

Definition route_of (s : list nat) : list nat := tl (removelast (fst (g (fst (grown f s))))).
Lemma route_of_spec u l : (u < n)%nat -> (1 <= l <= n)%nat ->
  fst (g (fst (grown f (seg u l)))) = 0%nat :: route_of (seg u l) ++ [0%nat] /\ Permutation (route_of (seg u l)) (seg u l) /\ route_cost D (route_of (seg u l)) <= grown_cost f (seg u l).
Proof.
  intros Hu Hl. destruct (seg_customers u l Hu ltac:(lia)) as [Hnd Hin]. destruct (grown_shape _ (seg_ne u l ltac:(lia)) Hnd Hin) as (l' & E & P).
  unfold route_of, grown_cost. rewrite E. cbn [fst snd].
  destruct (Hg l') as (l'' & E'' & P'' & H''). { intros ->. apply Permutation_length in P. rewrite seg_length in P. cbn in P. lia. } { eapply Permutation_NoDup; [symmetry; exact P|exact Hnd]. } { intros j Hj. apply Hin. eapply Permutation_in; [exact P|exact Hj]. }
  rewrite E''. cbn [fst]. rewrite removelast_closed. cbn [tl]. split; [reflexivity|]. split; [now rewrite P''|exact H''].
Qed.

Fixpoint segs (x : nat) (ys : list nat) : list (list nat) := match ys with [] => [] | y :: t => seg x (len x y) :: segs y t end.

Lemma segs_walk ys : forall x b W, walk n arc x (lens n x ys) b W -> Forall (fun y => (y < n)%nat) ys -> (list_sum (lens n x ys) <= n)%nat ->
  concat (segs x ys) = seg x (list_sum (lens n x ys)) /\ W = sum_costs f (segs x ys) + const * Z.of_nat (length ys) /\ Forall (admissible d C L ceps seps f) (segs x ys).
Proof.
  induction ys as [|y ys IH]; intros x b W Hw Hy Hs; cbn [lens segs concat] in *; inversion Hw as [|? ? z ? ? w Ha Hw']; subst.
  - split; [reflexivity|]. split; [cbn; lia|constructor].
  - inversion Hy as [|? ? Hy1 Hy2]; subst. apply arc_admissible in Ha as (Hx & Hl & Ha & ->). rewrite sum_cons in *.
    rewrite adv_len in Hw' by assumption. destruct (IH _ _ _ Hw' Hy2) as (I1 & I2 & I3); [lia|].
    split; [rewrite I1, seg_app by lia; rewrite adv_len by assumption; reflexivity|]. split; [|now constructor].
    subst w. unfold sum_costs, sumZ. cbn [map fold_right]. cbn [length]. lia.
Qed.
Lemma segs_ne ys : forall x b W, walk n arc x (lens n x ys) b W -> Forall (fun y => (y < n)%nat) ys -> Forall (fun s => s <> [] /\ (length s < n)%nat) (segs x ys).
Proof.
  induction ys as [|y ys IH]; intros x b W Hw Hy; cbn [lens segs] in *; [constructor|]. inversion Hw as [|? ? z ? ? w Ha Hw']; subst. inversion Hy as [|? ? Hy1 Hy2]; subst.
  apply arc_dom in Ha as [Hx Hl]. rewrite adv_len in Hw' by assumption. constructor; [|eapply IH; eauto]. split; [apply seg_ne; lia|]. rewrite seg_length. lia.
Qed.

Lemma routes_spec m b ys : (b < n)%nat -> forall x W, trail m b x ys -> walk n arc x (lens n x ys) b W -> Forall (fun y => (y < n)%nat) ys ->
  forall fuel rs, (list_sum (lens n x ys) <= fuel)%nat ->
  rf_routes false gt n f g m b fuel x (snd m x b) (encode rs) = Some (encode (rs ++ map route_of (segs x ys))).
Proof.
  intros Hb. induction ys as [|y ys IH]; intros x W T Hw Hy fuel rs Hfuel; [inversion T|].
  cbn [lens] in Hw, Hfuel. rewrite sum_cons in Hfuel. inversion Hw as [|? ? z ? ? w Ha Hw']; subst. inversion Hy as [|? ? Hy1 Hy2]; subst.
  apply arc_dom in Ha as [Hx Hl]. rewrite adv_len in Hw' by assumption.
  assert (Ey : snd m x b = y) by (inversion T; subst; auto). rewrite Ey.
  destruct fuel as [|fuel]; [lia|]. cbn [rf_routes segs map].
  assert (ER := route_spec x (len x y) Hx ltac:(lia) (len x y) 0 ltac:(lia) (S fuel) ltac:(lia)).
  replace (adv x 0) with x in ER by (unfold P_rfcs.adv; ltbs). rewrite adv_len in ER by assumption. change (fst (grown f (seg x 0))) with [0%nat; 0%nat] in ER. rewrite ER.
  destruct (route_of_spec x (len x y) Hx ltac:(lia)) as (R1 & _ & _). rewrite R1. cbn [tl].
  rewrite <- encode_snoc. destruct (Nat.eqb_spec y b) as [E|E].
  - inversion T as [|? t Hne]; subst; [reflexivity|congruence].
  - inversion T as [|? t Hne T']; subst; [congruence|]. rewrite (IH (snd m x b) w); auto; [|lia]. now rewrite <- app_assoc.
Qed.

(** ** Partitions are closed walks *)
Lemma walk_of ss : Forall (fun s => s <> [] /\ (length s < n)%nat) ss -> Forall (admissible d C L ceps seps f) ss ->
  forall u k, (u < n)%nat -> (k <= n)%nat -> concat ss = seg u k -> walk n arc u (map (@length nat) ss) (adv u k) (sum_costs f ss + const * Z.of_nat (length ss)).
Proof.
  induction ss as [|s ss IH]; intros H1 H2 u k Hu Hk E; cbn [concat] in E.
  - assert (k = 0%nat) by (apply (f_equal (@length nat)) in E; rewrite seg_length in E; cbn in E; lia). subst k. cbn. replace (const * 0) with 0 by lia. replace (adv u 0) with u by (unfold P_rfcs.adv; ltbs). now constructor.
  - inversion H1 as [|? ? [Hne Hlt] H1']; subst. inversion H2 as [|? ? Ha H2']; subst.
    assert (Hk' : (length s + length (concat ss) = k)%nat) by (rewrite <- app_length, E; apply seg_length).
    assert (Hs1 : (1 <= length s)%nat) by (destruct s; [contradiction|cbn; lia]).
    rewrite <- Hk', seg_app in E by lia.
    apply app_same in E as [E1 E2]; [|now rewrite seg_length].
    cbn [map]. unfold sum_costs, sumZ. cbn [map fold_right length].
    replace (grown_cost f s + fold_right Z.add 0 (map (grown_cost f) ss) + const * Z.of_nat (S (length ss)))
      with ((grown_cost f s + const) + (sum_costs f ss + const * Z.of_nat (length ss))) by (unfold sum_costs, sumZ; lia).
    econstructor.
    + apply arc_admissible. split; [exact Hu|]. split; [lia|]. rewrite <- E1. split; [exact Ha|reflexivity].
    + assert (Hu' := adv_lt n u (length s) Hu ltac:(lia)). assert (I := IH H1' H2' _ (length (concat ss)) Hu' ltac:(lia) E2). rewrite adv_adv in I by lia. rewrite <- Hk'. exact I.
Qed.
Lemma partition_walk ss : partition d C L ceps seps f tour ss -> exists u, walk n arc u (map (@length nat) ss) u (sum_costs f ss + const * Z.of_nat (length ss)) /\ ss <> [].
Proof.
  intros (Hr & H2 & Hne & Ha). destruct (rotation_seg _ Hr) as (u & Hu & E). exists u. split; [|intros ->; cbn in H2; lia].
  assert (G : walk n arc u (map (@length nat) ss) (adv u n) (sum_costs f ss + const * Z.of_nat (length ss))).
  { apply walk_of; auto. apply Forall_forall. intros s Hs. rewrite Forall_forall in Hne. split; [now apply Hne|].
    assert (Hl : length (concat ss) = n) by (rewrite E; apply seg_length). destruct (in_split _ _ Hs) as (x & y & Ess). rewrite Ess in Hl, H2. rewrite concat_app, app_length in Hl. cbn [concat] in Hl. rewrite app_length in Hl.
    rewrite app_length in H2. cbn [length] in H2. 
    assert (Hpos : forall zs : list (list nat), (forall s, In s zs -> s <> []) -> zs <> [] -> (1 <= length (concat zs))%nat).
    { intros [|z zs] Hz Hzn; [contradiction|]. cbn [concat]. rewrite app_length. assert (z <> []) by (apply Hz; now left). destruct z; [contradiction|cbn; lia]. }
    destruct x as [|x0 x].
    - destruct y as [|y0 y]; [cbn in H2; lia|]. assert (P := Hpos (y0 :: y) ltac:(intros s' Hs'; apply Hne; rewrite Ess; right; exact Hs') ltac:(discriminate)). lia.
    - assert (P := Hpos (x0 :: x) ltac:(intros s' Hs'; apply Hne; rewrite Ess; apply in_or_app; left; exact Hs') ltac:(discriminate)). lia. }
  replace (adv u n) with u in G by (unfold P_rfcs.adv; ltbs). exact G.
Qed.

(** ** All together *)
Lemma segs_length ys : forall x, length (segs x ys) = length ys.
Proof. induction ys as [|y ys IH]; intros x; [reflexivity|]. cbn. now rewrite IH. Qed.
Lemma segs_routes ys : forall x b W, walk n arc x (lens n x ys) b W -> Forall (fun y => (y < n)%nat) ys ->
  Forall2 (@Permutation nat) (map route_of (segs x ys)) (segs x ys) /\ Forall2 (fun r s => route_cost D r <= grown_cost f s) (map route_of (segs x ys)) (segs x ys).
Proof.
  induction ys as [|y ys IH]; intros x b W Hw Hy; cbn [lens segs map] in *; [split; constructor|]. inversion Hw as [|? ? z ? ? w Ha Hw']; subst. inversion Hy as [|? ? Hy1 Hy2]; subst.
  apply arc_dom in Ha as [Hx Hl]. rewrite adv_len in Hw' by assumption. destruct (IH _ _ _ Hw' Hy2) as [I1 I2]. destruct (route_of_spec x (len x y) Hx ltac:(lia)) as (_ & R2 & R3).
  split; constructor; assumption.
Qed.
Theorem partition_spec fuel : (n <= fuel)%nat -> exists ss rs,
  rf_sol ceps seps N d C L gt const f g None fuel = Some (encode rs) /\
  partition d C L ceps seps f tour ss /\ Forall2 (@Permutation nat) rs ss /\
  Forall2 (fun r s => route_cost D r <= grown_cost f s) rs ss /\
  (forall ss', partition d C L ceps seps f tour ss' -> sum_costs f ss + const * Z.of_nat (length ss) <= sum_costs f ss' + const * Z.of_nat (length ss')).
Proof.
  intros Hfuel. assert (H2 := n2). unfold rf_sol. rewrite gt_gtl. destruct matrix_is_c as [M1 M2].
  destruct (floyd_inv n arc n2 arc_dom arc_mono N (rf_matrix entries) ltac:(unfold n; lia) (start_inv n arc n2 arc_dom arc_mono _ M1 M2)) as (m & Em & F1 & F2 & F3 & F4 & F5).
  rewrite Em. set (b := argmin_diag N m).
  assert (Hmin : forall u s, fst m u u = Some s -> le_opt (fst m b b) s).
  { intros u s Hu. destruct (F2 _ _ _ Hu) as (Hun & _). apply (argmin_spec m N u s); [unfold n in Hun; lia|exact Hu]. }
  assert (Hsome := some_split n arc n2 arc_dom arc_mono m F1 F4 F5 b Hmin arc_unit).
  destruct (best_split n arc n2 arc_dom arc_mono m F1 F2 F3 F4 F5 b Hmin Hsome) as (ys & W & T & HF & Hw & Hs & EW & Hopt).
  assert (Hb : (b < n)%nat) by (destruct (F2 _ _ _ EW) as (Hb & _); exact Hb).
  exists (segs b ys), (map route_of (segs b ys)).
  destruct (segs_walk ys b b W Hw HF ltac:(lia)) as (S1 & S2 & S3). assert (S4 := segs_ne ys b b W Hw HF). destruct (segs_routes ys b b W Hw HF) as [S5 S6].
  split; [exact (routes_spec m b ys Hb b W T Hw HF fuel [] ltac:(lia))|].
  split; [|split; [exact S5|split; [exact S6|]]].
  - split; [rewrite S1, Hs; now apply seg_rotation|]. split; [|split; [|exact S3]].
    + assert (Hlen : length (concat (segs b ys)) = n) by (rewrite S1, Hs; apply seg_length).
      destruct (segs b ys) as [|s1 [|s2 ss]]; cbn [concat length] in *; [lia| |lia]. inversion S4 as [|? ? [_ Hlt] _]; subst. rewrite app_nil_r in Hlen. lia.
    + eapply Forall_impl; [|exact S4]. intros s Hs'. apply Hs'.
  - intros ss' Hp. destruct (partition_walk ss' Hp) as (u & Hwu & Hne). rewrite segs_length, <- S2. eapply Hopt; [exact Hwu|]. destruct ss'; [contradiction|discriminate].
Qed.

(** ** Interrupted *)
Definition key (e : nat * (nat * Z)) : nat := (fst e * n + len (fst e) (fst (snd e)))%nat.
Definition before (e e' : nat * (nat * Z)) : Prop := (key e < key e')%nat.
Lemma entries_sorted : StronglySorted before entries.
Proof.
  assert (H2 := n2). unfold rf_entries, range. rewrite Nat.sub_0_r.
  assert (G : forall k u, (u + k <= n)%nat -> StronglySorted before (flat_map (fun u => map (pair u) (rf_row ceps seps d C L gt n const f u n (rf_next n u) 0 [0%nat; 0%nat])) (seq u k)) /\
     Forall (fun e => (u * n < key e)%nat) (flat_map (fun u => map (pair u) (rf_row ceps seps d C L gt n const f u n (rf_next n u) 0 [0%nat; 0%nat])) (seq u k))).
  { induction k as [|k IH]; intros u Hu; [split; constructor|]. cbn [seq flat_map]. destruct (IH (S u) ltac:(lia)) as [I1 I2].
    rewrite next_adv by lia. change [0%nat; 0%nat] with (fst (grown f (seg u 0))) at 1 3. rewrite (row_spec u ltac:(lia) (n - 1) 0); [|lia|reflexivity|lia|lia].
    rewrite map_map. set (row := map _ (take_while _ _)).
    assert (Hrow : StronglySorted before row /\ Forall (fun e => (u * n < key e < S u * n)%nat) row).
    { unfold row. clear row I1 I2.
      assert (K : forall q p, (1 <= p)%nat -> (p + q = n)%nat -> StronglySorted before (map (fun l => (u, (adv u l, grown_cost f (seg u l) + const))) (take_while (okb u) (seq p q))) /\
         Forall (fun e => (u * n + p <= key e < S u * n)%nat) (map (fun l => (u, (adv u l, grown_cost f (seg u l) + const))) (take_while (okb u) (seq p q)))).
      { induction q as [|q IHq]; intros p Hp Hpq; cbn [seq take_while]; [split; constructor|]. destruct (okb u p); [|split; constructor]. destruct (IHq (S p) ltac:(lia) ltac:(lia)) as [J1 J2]. cbn [map].
        assert (Ek : key (u, (adv u p, grown_cost f (seg u p) + const)) = (u * n + p)%nat) by (unfold key; cbn [fst snd]; rewrite len_adv by lia; reflexivity).
        split; constructor; auto.
        - eapply Forall_impl; [|exact J2]. intros e He. unfold before. rewrite Ek. cbn beta in He. lia.
        - rewrite Ek. cbn. lia.
        - eapply Forall_impl; [|exact J2]. intros e He. cbn beta in *. lia. }
      destruct (K (n - 1)%nat 1%nat ltac:(lia) ltac:(lia)) as [K1 K2]. split; [exact K1|]. eapply Forall_impl; [|exact K2]. intros e He. cbn beta in *. lia. }
    destruct Hrow as [R1 R2]. split.
    - clear IH. induction row as [|e row IHr]; [exact I1|]. cbn [app]. inversion R1 as [|? ? R1a R1b]; subst. inversion R2 as [|? ? R2a R2b]; subst. constructor; [now apply IHr|].
      apply Forall_app. split; [exact R1b|]. eapply Forall_impl; [|exact I2]. intros e' He'. unfold before. cbn beta in *. lia.
    - apply Forall_app. split; [eapply Forall_impl; [|exact R2]; intros e He; cbn beta in *; lia|]. eapply Forall_impl; [|exact I2]. intros e He. cbn beta in *. cbn [Nat.mul] in He. lia. }
  apply G. lia.
Qed.
Lemma sorted_prefix es s e e' : StronglySorted before es -> In e (firstn s es) -> In e' es -> (key e' <= key e)%nat -> In e' (firstn s es).
Proof.
  revert s. induction es as [|x es IH]; intros s Hs He He' Hk; [destruct s; exact He|]. destruct s as [|s]; [contradiction|]. cbn [firstn In] in *. inversion Hs as [|? ? Hs1 Hs2]; subst. rewrite Forall_forall in Hs2.
  destruct He' as [->|He']; [now left|]. right. destruct He as [->|He].
  - exfalso. specialize (Hs2 _ He'). unfold before in Hs2. lia.
  - eapply IH; eauto.
Qed.

Variable stop : nat.
Notation part := (firstn stop entries).
Definition arcp (u l : nat) : option Z := if existsb (fun e => Nat.eqb (fst e) u && Nat.eqb (fst (snd e)) (adv u l)) part then arc u l else None.
Lemma part_in e : In e part -> In e entries.
Proof. intros H. rewrite <- (firstn_skipn stop entries). apply in_or_app. now left. Qed.
Lemma arcp_spec u l z : arcp u l = Some z <-> arc u l = Some z /\ In (u, (adv u l, z)) part.
Proof.
  unfold arcp. destruct (existsb _ part) eqn:E.
  - apply existsb_exists in E as ((u' & v' & z') & Hin & E). cbn [fst snd] in E. apply andb_true_iff in E as [E1 E2]. apply Nat.eqb_eq in E1, E2. subst u' v'.
    split; [|tauto]. intros H. split; [exact H|]. assert (Hd := arc_dom _ _ _ H). assert (Hc := proj1 (entries_spec _ _ _) (part_in _ Hin)). rewrite (c_adv n arc n2 arc_dom arc_mono) in Hc by lia. congruence.
  - split; [discriminate|]. intros [H Hin]. assert (E' : existsb (fun e => Nat.eqb (fst e) u && Nat.eqb (fst (snd e)) (adv u l)) part = true); [|congruence].
    apply existsb_exists. exists (u, (adv u l, z)). split; [exact Hin|]. cbn. now rewrite !Nat.eqb_refl.
Qed.
Lemma arcp_dom u l x : arcp u l = Some x -> (u < n)%nat /\ (1 <= l < n)%nat.
Proof. intros H. apply arcp_spec in H as [H _]. now apply arc_dom in H. Qed.
Lemma arcp_mono u l x l' : arcp u l = Some x -> (1 <= l' <= l)%nat -> exists x', arcp u l' = Some x' /\ 0 <= x' <= x.
Proof.
  intros H Hl'. apply arcp_spec in H as [H Hin]. destruct (arc_mono _ _ _ _ H Hl') as (x' & H' & Hx). exists x'. split; [|exact Hx]. apply arcp_spec. split; [exact H'|].
  assert (Hd := arc_dom _ _ _ H). eapply sorted_prefix; [apply entries_sorted|exact Hin| |].
  - apply entries_spec. rewrite (c_adv n arc n2 arc_dom arc_mono) by lia. exact H'.
  - unfold key. cbn [fst snd]. rewrite !len_adv by lia. lia.
Qed.
Lemma arcp_matrix : (forall u v, fst (rf_matrix part) u v = c n arcp u v) /\ (forall u v, c n arcp u v <> None -> snd (rf_matrix part) u v = v).
Proof.
  destruct (matrix_spec part) as [H1 H2]. { intros u v z z' H H'. apply part_in in H, H'. apply entries_spec in H, H'. congruence. }
  assert (E : forall u v, fst (rf_matrix part) u v = c n arcp u v).
  { assert (G : forall u v z, c n arcp u v = Some z <-> In (u, (v, z)) part).
    { intros u v z. split.
      - intros H. apply (c_dom n arcp n2 arcp_dom arcp_mono) in H as (Hu & Hv & _ & _ & H). apply arcp_spec in H as [_ H]. now rewrite adv_len in H.
      - intros H. assert (H' := proj1 (entries_spec _ _ _) (part_in _ H)). apply (c_dom n arc n2 arc_dom arc_mono) in H' as (Hu & Hv & Hne & Hl & H').
        unfold c. replace (v <? n)%nat with true by lia. apply arcp_spec. split; [exact H'|]. now rewrite adv_len. }
    intros u v. destruct (c n arcp u v) as [z|] eqn:Ec; [apply H1, G, Ec|]. destruct (fst (rf_matrix part) u v) as [z|] eqn:Em; [|reflexivity]. apply H1, G in Em. congruence. }
  split; [exact E|]. intros u v H. apply H2. now rewrite E.
Qed.
Lemma walk_part u ls v w : walk n arcp u ls v w -> walk n arc u ls v w.
Proof. induction 1 as [|u l x ls v w H _ IH]; [now constructor|]. apply arcp_spec in H as [H _]. now econstructor. Qed.

(** Unset entries point to index 0. *)
Definition unset0 (m : fw) : Prop := forall i j, fst m i j = None -> snd m i j = 0%nat.
Lemma matrix_unset es : unset0 (rf_matrix es).
Proof.
  induction es as [|e es IH] using rev_ind; [now intros i j _|]. unfold rf_matrix in *. rewrite fold_left_app. cbn [fold_left]. intros i j. unfold fw_set. cbn [fst snd]. unfold upd2.
  destruct (Nat.eqb i (fst e) && Nat.eqb j (fst (snd e))); [discriminate|apply IH].
Qed.
Lemma floyd_unset M m : unset0 m -> unset0 (floyd M m).
Proof.
  intros H. unfold floyd. apply (fold_seq_ind (fun _ => unset0)); [exact H|]. intros i m1 _ H1. apply (fold_seq_ind (fun _ => unset0)); [exact H1|]. intros j m2 _ H2. apply (fold_seq_ind (fun _ => unset0)); [exact H2|]. intros k m3 _ H3.
  unfold fw_step. destruct (fst m3 i k); [|exact H3]. destruct (fst m3 k j); [|exact H3]. destruct (match fst m3 i j with Some z0 => _ | None => _ end); [|exact H3].
  intros p q. cbn [fst snd]. unfold upd2. destruct (Nat.eqb p i && Nat.eqb q j); [discriminate|apply H3].
Qed.
Lemma argmin_none m M : (forall u, fst m u u = None) -> argmin_diag M m = 0%nat.
Proof. intros H. unfold argmin_diag. induction (range 1 M) as [|x l IH]; [reflexivity|]. cbn [fold_left]. unfold argmin_step at 2. rewrite H. exact IH. Qed.

(** Routes in the order of the tour *)
Lemma plain_route u l : (u < n)%nat -> (1 <= l <= n)%nat -> forall k t, (t + k = l)%nat -> forall fuel, (k <= fuel)%nat ->
  rf_route true gt n f fuel (adv u t) (adv u l) (0%nat :: seg u t ++ [0%nat]) = Some (0%nat :: seg u l ++ [0%nat]).
Proof.
  intros Hu Hl. induction k as [|k IH]; intros t Hk fuel Hfuel.
  - replace t with l by lia.
    assert (E2 : Nat.eqb (length (0%nat :: seg u l ++ [0%nat])) 2 || negb (Nat.eqb (adv u l) (adv u l)) = false).
    { rewrite Nat.eqb_refl. cbn [negb]. rewrite orb_false_r. apply Nat.eqb_neq. cbn [length]. rewrite app_length, seg_length. cbn [length]. lia. }
    destruct fuel; cbn [rf_route]; rewrite E2; reflexivity.
  - destruct fuel as [|fuel]; [lia|]. cbn [rf_route].
    assert (E2 : Nat.eqb (length (0%nat :: seg u t ++ [0%nat])) 2 || negb (Nat.eqb (adv u t) (adv u l)) = true).
    { destruct t; [reflexivity|]. apply orb_true_iff. right. apply negb_true_iff, Nat.eqb_neq. unfold P_rfcs.adv. ltbs. }
    rewrite E2. rewrite next_step by lia. rewrite gt_nth by (apply adv_lt; lia). rewrite removelast_closed, <- app_comm_cons, <- seg_S, <- app_comm_cons. apply IH; lia.
Qed.
Lemma plain_routes m b ys : (b < n)%nat -> forall x W, trail m b x ys -> walk n arc x (lens n x ys) b W -> Forall (fun y => (y < n)%nat) ys ->
  forall fuel rs, (list_sum (lens n x ys) <= fuel)%nat ->
  rf_routes true gt n f g m b fuel x (snd m x b) (encode rs) = Some (encode (rs ++ segs x ys)).
Proof.
  intros Hb. induction ys as [|y ys IH]; intros x W T Hw Hy fuel rs Hfuel; [inversion T|].
  cbn [lens] in Hw, Hfuel. rewrite sum_cons in Hfuel. inversion Hw as [|? ? z ? ? w Ha Hw']; subst. inversion Hy as [|? ? Hy1 Hy2]; subst.
  apply arc_dom in Ha as [Hx Hl]. rewrite adv_len in Hw' by assumption.
  assert (Ey : snd m x b = y) by (inversion T; subst; auto). rewrite Ey.
  destruct fuel as [|fuel]; [lia|]. cbn [rf_routes segs].
  assert (ER := plain_route x (len x y) Hx ltac:(lia) (len x y) 0 ltac:(lia) (S fuel) ltac:(lia)).
  replace (adv x 0) with x in ER by (unfold P_rfcs.adv; ltbs). rewrite adv_len in ER by assumption. change (0%nat :: seg x 0 ++ [0%nat]) with [0%nat; 0%nat] in ER. rewrite ER.
  cbn [tl]. rewrite <- encode_snoc. destruct (Nat.eqb_spec y b) as [E|E].
  - inversion T as [|? t Hne]; subst; [reflexivity|congruence].
  - inversion T as [|? t Hne T']; subst; [congruence|]. rewrite (IH (snd m x b) w); auto; [|lia]. now rewrite <- app_assoc.
Qed.

Theorem interrupted_spec fuel : (n <= fuel)%nat -> exists ss,
  rf_sol ceps seps N d C L gt const f g (Some stop) fuel = Some (encode ss) /\
  rotation tour (concat ss) /\ Forall (fun s => s <> []) ss /\
  (length ss = 1%nat \/ Forall (admissible d C L ceps seps f) ss).
Proof.
  intros Hfuel. assert (H2 := n2). unfold rf_sol. rewrite gt_gtl. destruct arcp_matrix as [M1 M2].
  destruct (floyd_inv n arcp n2 arcp_dom arcp_mono N (rf_matrix part) ltac:(unfold n; lia) (start_inv n arcp n2 arcp_dom arcp_mono _ M1 M2)) as (m & Em & F1 & F2 & F3 & F4 & F5).
  assert (H0 : unset0 m) by (rewrite <- Em; apply floyd_unset, matrix_unset).
  rewrite Em. set (b := argmin_diag N m).
  assert (Hmin : forall u s, fst m u u = Some s -> le_opt (fst m b b) s).
  { intros u s Hu. destruct (F2 _ _ _ Hu) as (Hun & _). apply (argmin_spec m N u s); [unfold n in Hun; lia|exact Hu]. }
  destruct (fst m b b) as [s0|] eqn:Eb.
  - assert (Hsome : fst m b b <> None) by congruence. rewrite <- Eb in Hmin.
    destruct (best_split n arcp n2 arcp_dom arcp_mono m F1 F2 F3 F4 F5 b Hmin Hsome) as (ys & W & T & HF & Hw & Hs & EW & _). apply walk_part in Hw.
    assert (Hb : (b < n)%nat) by (destruct (F2 _ _ _ EW) as (Hb & _); exact Hb).
    exists (segs b ys). destruct (segs_walk ys b b W Hw HF ltac:(lia)) as (S1 & S2 & S3). assert (S4 := segs_ne ys b b W Hw HF).
    split; [exact (plain_routes m b ys Hb b W T Hw HF fuel [] ltac:(lia))|]. split; [rewrite S1, Hs; now apply seg_rotation|].
    split; [eapply Forall_impl; [|exact S4]; intros s Hs'; apply Hs'|]. right. exact S3.
  - assert (Hnone : forall u, fst m u u = None).
    { intros u. destruct (fst m u u) as [s|] eqn:E; [|reflexivity]. destruct (Hmin _ _ E) as (? & ? & _). discriminate. }
    assert (Eb0 : b = 0%nat) by now apply argmin_none. rewrite Eb0. rewrite (H0 0%nat 0%nat (Hnone 0%nat)).
    exists [seg 0 n]. destruct fuel as [|fuel]; [lia|]. cbn [rf_routes].
    assert (ER := plain_route 0 n ltac:(lia) ltac:(lia) n 0 ltac:(lia) (S fuel) ltac:(lia)).
    replace (adv 0 0) with 0%nat in ER by (unfold P_rfcs.adv; ltbs). replace (adv 0 n) with 0%nat in ER by (unfold P_rfcs.adv; ltbs). change (0%nat :: seg 0 0 ++ [0%nat]) with [0%nat; 0%nat] in ER. rewrite ER.
    cbn [tl Nat.eqb]. split; [unfold encode; cbn [flat_map app]; now rewrite app_nil_r|]. cbn [concat]. rewrite app_nil_r. split; [apply seg_rotation; lia|]. split; [constructor; [apply seg_ne; lia|constructor]|]. now left.
Qed.
End Tour.
