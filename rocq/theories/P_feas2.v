(** * Proofs: sequential savings sees demands and limits only through which routes are feasible *)
From Coq Require Import ZifyBool ZifyNat.
From Verif Require Import Spec Spec_inter Spec_savings Spec_feas PyBase M_util M_psavings M_ssavings P_base P_psavings P_feas.

Lemma mem_in x l : mem x l = true -> In x l.
Proof. unfold mem. rewrite existsb_exists. intros (y & Hy & E). apply Nat.eqb_eq in E. now subst. Qed.
Lemma in_del x y l : In y (del x l) <-> In y l /\ y <> x.
Proof. unfold del. rewrite filter_In, negb_true_iff, Nat.eqb_neq. intuition congruence. Qed.
Lemma del_nodup x l : NoDup l -> NoDup (del x l).
Proof. apply NoDup_filter. Qed.

Lemma exceeds_unset lim eps x y : is_set lim = false -> exceeds lim eps x = exceeds lim eps y.
Proof. unfold exceeds, is_set. now destruct (truthy lim). Qed.

Lemma loop_rest ceps seps D d C L mk cb sol : forall n l em rd rl u em' u' pts,
  merge_loop ceps seps D d C L mk cb sol n l em rd rl u = Some (em', u', pts) -> NoDup u -> NoDup u' /\ incl u' u.
Proof.
  induction n as [|n IHn]; induction l as [|sv t IH]; intros em rd rl u em' u' pts H Hu;
    try (cbn in H; injection H as _ <- _; split; [assumption|easy]);
    destruct sv as (((s & x) & i) & j); cbn [merge_loop] in H;
    (destruct (negb mk && _); [injection H as _ <- _; split; [assumption|easy]|]);
    (destruct (negb (mem j u)); [eapply IH; eassumption|]); (destruct (exceeds C ceps _); [eapply IH; eassumption|]); cbv zeta in H;
    (destruct (negb _); [eapply IH; eassumption|]); (destruct (exceeds L seps _); [eapply IH; eassumption|]); [discriminate|].
  destruct (merge_loop _ _ _ _ _ _ _ _ _ _ _ _ _ _ _) as [[[e2 u2] p2]|] eqn:E in H; [|discriminate]. injection H as _ <- _.
  apply IHn in E; [|now apply del_nodup]. destruct E as [E1 E2]. split; [assumption|]. intros y Hy. apply E2, in_del in Hy. tauto.
Qed.

Section Feas2.
Variables (N : nat) (D : matrix) (d d' : demands) (C C' L L' : limit) (ceps ceps' seps seps' : Z) (mk : bool) (cb : list nat -> nat -> list saving).
Hypothesis Hsym : symmetric D.
Hypothesis Hsame : forall r, possible_route N r -> (feasible D d C L ceps seps r <-> feasible D d' C' L' ceps' seps' r).

Definition tracks (d : demands) (C L : limit) (em : list nat) (rd rl : Z) : Prop :=
  (is_set C = true -> rd = demand d em) /\ (is_set L = true -> rl = route_cost D em).

Lemma test_tracks dd CC LL ce se em q rd rl j x : tracks dd CC LL em rd rl ->
  demand dd q = demand dd em + dd j -> route_cost D q = route_cost D em + x ->
  exceeds CC ce (rd + dd j) || exceeds LL se (rl + x) = false <-> feasible D dd CC LL ce se q.
Proof.
  intros [T1 T2] E1 E2.
  assert (EC : exceeds CC ce (rd + dd j) = exceeds CC ce (demand dd q)).
  { destruct (is_set CC) eqn:E; [now rewrite T1, E1|now apply exceeds_unset]. }
  assert (EL : exceeds LL se (rl + x) = exceeds LL se (route_cost D q)).
  { destruct (is_set LL) eqn:E; [now rewrite T2, E2|now apply exceeds_unset]. }
  rewrite EC, EL, orb_false_iff. split; intros [H1 H2]; split; try now apply exceeds_within. all: now apply within_exceeds.
Qed.

Lemma cost_left em i j : em <> [] -> hd 0%nat em = i -> route_cost D (j :: em) = route_cost D em + (D 0%nat j + D i j - D 0%nat i).
Proof.
  intros He <-. change (j :: em) with ([j] ++ em). rewrite (join_cost D [j] em Hsym). cbn [last].
  assert (E : route_cost D [j] = D 0%nat j + D j 0%nat) by (unfold route_cost; cbn; lia). rewrite E, (Hsym j 0%nat), (Hsym (hd 0%nat em) j). lia.
Qed.
Lemma cost_right em i j : em <> [] -> last em 0%nat = i -> route_cost D (em ++ [j]) = route_cost D em + (D 0%nat j + D i j - D 0%nat i).
Proof.
  intros He <-. rewrite (join_cost D em [j] Hsym). cbn [hd].
  assert (E : route_cost D [j] = D 0%nat j + D j 0%nat) by (unfold route_cost; cbn; lia). rewrite E, (Hsym j 0%nat). lia.
Qed.
Lemma demand_snoc dd em j : demand dd (em ++ [j]) = demand dd em + dd j.
Proof. rewrite demand_app. cbn. lia. Qed.

Lemma merge_loop_alike sol : forall n l em rd rl rd' rl' u,
  em <> [] -> NoDup (em ++ u) -> Forall (fun x => 1 <= x < N)%nat (em ++ u) ->
  tracks d C L em rd rl -> tracks d' C' L' em rd' rl' ->
  merge_loop ceps seps D d C L mk cb sol n l em rd rl u = merge_loop ceps' seps' D d' C' L' mk cb sol n l em rd' rl' u.
Proof.
  induction n as [|n IHn]; induction l as [|sv t IH]; intros em rd rl rd' rl' u He Hn Hr T T'; try reflexivity;
    destruct sv as (((s & x) & i) & j); cbn [merge_loop]; (destruct (negb mk && _); [reflexivity|]);
    (destruct (mem j u) eqn:Ej; cbn [negb]; [apply mem_in in Ej|now apply IH]); cbv zeta;
    pose proof (fun q => Hsame q) as HS;
    (assert (Hju : ~ In j em) by (intros Hj; apply in_split in Hj as (e1 & e2 & ->); rewrite <- app_assoc in Hn; cbn [app] in Hn; apply NoDup_remove_2 in Hn; apply Hn; rewrite !in_app_iff; auto));
    (assert (Hjr : (1 <= j < N)%nat) by (rewrite Forall_forall in Hr; apply Hr, in_or_app; now right));
    (assert (Hem : NoDup em) by (apply (Permutation_NoDup (Permutation_app_comm _ _)) in Hn; now apply P_intra2.NoDup_app_r in Hn));
    (assert (Hemr : Forall (fun x => 1 <= x < N)%nat em) by (apply Forall_app in Hr; tauto));
    set (lf := Nat.eqb (hd 0%nat em) i); set (rt := Nat.eqb (last em 0%nat) i && (1 <? length em)%nat);
    (assert (Hboth : lf = true -> rt = false) by
       (unfold lf, rt; intros El; apply Nat.eqb_eq in El; destruct (1 <? length em)%nat eqn:Elen; [|apply andb_false_r];
        rewrite andb_true_r; apply Nat.eqb_neq; intros E; apply (hd_last_ne em Hem); [now apply Nat.ltb_lt in Elen|congruence]));
    set (q := if rt then (if lf then j :: em else em) ++ [j] else if lf then j :: em else em).
  1: destruct (lf || rt) eqn:Eor; cbn [negb]; [|destruct (exceeds C ceps _), (exceeds C' ceps' _); now apply IH].
  2: destruct (lf || rt) eqn:Eor; cbn [negb]; [|destruct (exceeds C ceps _), (exceeds C' ceps' _); now apply IH].
  all: assert (Q : possible_route N q /\ (forall dd, demand dd q = demand dd em + dd j) /\ route_cost D q = route_cost D em + (D 0%nat j + D i j - D 0%nat i) /\
         Permutation q (j :: em)) by
    (unfold q; destruct lf eqn:Elf; [rewrite (Hboth eq_refl); apply Nat.eqb_eq in Elf|cbn [orb] in Eor; rewrite Eor; unfold rt in Eor; apply andb_prop in Eor as [Eor _]; apply Nat.eqb_eq in Eor];
     [split; [split; [discriminate|]; split; [now constructor|now constructor]|]; split; [intros dd; change (demand dd (j :: em)) with (dd j + demand dd em); lia|];
       split; [now apply cost_left|reflexivity]
     |split; [split; [now destruct em|]; split; [apply (Permutation_NoDup (Permutation_cons_append em j)); now constructor|apply Forall_app; split; [assumption|now constructor]]|];
       split; [intros dd; apply demand_snoc|]; split; [now apply cost_right|symmetry; apply Permutation_cons_append]]).
  all: destruct Q as (Q1 & Q2 & Q3 & Q4);
    pose proof (test_tracks d C L ceps seps em q rd rl j _ T (Q2 d) Q3) as F; pose proof (test_tracks d' C' L' ceps' seps' em q rd' rl' j _ T' (Q2 d') Q3) as F';
    specialize (HS q Q1);
    destruct (exceeds C ceps (rd + d j)) eqn:E1; destruct (exceeds C' ceps' (rd' + d' j)) eqn:E2; cbn [orb] in F, F';
    destruct (exceeds L seps (rl + (D 0%nat j + D i j - D 0%nat i))) eqn:E3; destruct (exceeds L' seps' (rl' + (D 0%nat j + D i j - D 0%nat i))) eqn:E4;
    try (now apply IH); try (exfalso; clear - F F' HS; intuition congruence).
  1: reflexivity.
  assert (X : merge_loop ceps seps D d C L mk cb sol n (sort_reverse (t ++ cb (del j u) j)) q (if is_set C then rd + d j else rd)
      (if is_set L then rl + (D 0%nat j + D i j - D 0%nat i) else rl) (del j u) =
    merge_loop ceps' seps' D d' C' L' mk cb sol n (sort_reverse (t ++ cb (del j u) j)) q (if is_set C' then rd' + d' j else rd')
      (if is_set L' then rl' + (D 0%nat j + D i j - D 0%nat i) else rl') (del j u)).
  { apply IHn.
    - apply Q1.
    - apply (Permutation_NoDup (Permutation_sym (Permutation_app_tail (del j u) Q4))). cbn [app].
      assert (Hd : NoDup (em ++ del j u)).
      { clear - Hn. induction em as [|y em IH]; cbn [app] in *; [now apply del_nodup|]. inversion Hn as [|? ? Hy Hn']; subst. constructor; [|auto].
        rewrite in_app_iff in *. rewrite in_del. tauto. }
      constructor; [|exact Hd]. rewrite in_app_iff, in_del. tauto.
    - apply Forall_app. split; [apply Q1|]. apply Forall_forall. intros y Hy. apply in_del in Hy. rewrite Forall_forall in Hr. apply Hr, in_or_app. tauto.
    - destruct T as [T1 T2]. split; intros E; rewrite E; [rewrite Q2, T1 by assumption; reflexivity|rewrite Q3, T2 by assumption; reflexivity].
    - destruct T' as [T1 T2]. split; intros E; rewrite E; [rewrite Q2, T1 by assumption; reflexivity|rewrite Q3, T2 by assumption; reflexivity]. }
  rewrite X. reflexivity.
Qed.

Lemma next_seed_in u : forall seeds s t, next_seed u seeds = Some (s, t) -> In s u.
Proof. induction seeds as [|a seeds IH]; intros s t H; [discriminate|]. cbn in H. destruct (mem a u) eqn:E; [injection H as <- _; now apply mem_in|eauto]. Qed.

Lemma route_loop_alike : forall n seeds sol u, NoDup u -> Forall (fun x => 1 <= x < N)%nat u ->
  route_loop ceps seps D d C L mk cb n seeds sol u = route_loop ceps' seps' D d' C' L' mk cb n seeds sol u.
Proof.
  induction n as [|n IH]; intros seeds sol u Hn Hr; [reflexivity|]. cbn [route_loop]. destruct u as [|u0 u1] eqn:Eu; [reflexivity|]. rewrite <- Eu in *. clear u0 u1 Eu.
  destruct (next_seed u seeds) as [[seed seeds']|] eqn:Es; [|reflexivity]. apply next_seed_in in Es. cbv zeta.
  assert (E1 : forall dd, demand dd [seed] = dd seed) by (intros dd; cbn; lia).
  assert (E2 : route_cost D [seed] = D 0%nat seed + D seed 0%nat) by (unfold route_cost; cbn; lia).
  assert (M : forall u', u' = del seed u -> merge_loop ceps seps D d C L mk cb sol (length u') (cb u' seed) [seed]
     (if is_set C then d seed else 0) (if is_set L then D 0%nat seed + D seed 0%nat else 0) u' =
     merge_loop ceps' seps' D d' C' L' mk cb sol (length u') (cb u' seed) [seed]
     (if is_set C' then d' seed else 0) (if is_set L' then D 0%nat seed + D seed 0%nat else 0) u').
  { intros u' ->. apply merge_loop_alike.
    - discriminate.
    - cbn [app]. constructor; [rewrite in_del; tauto|now apply del_nodup].
    - cbn [app]. rewrite Forall_forall in *. intros y [<-|Hy]; [auto|]. apply in_del in Hy. apply Hr. tauto.
    - split; intros E; rewrite E; congruence.
    - split; intros E; rewrite E; congruence. }
  rewrite <- (M _ eq_refl).
  destruct (merge_loop ceps seps D d C L mk cb sol _ _ _ _ _ _) as [[[em u2] pts]|] eqn:E; [|reflexivity].
  apply loop_rest in E; [|now apply del_nodup]. destruct E as [E3 E4].
  rewrite IH; [reflexivity|assumption|]. rewrite Forall_forall in *. intros y Hy. apply E4, in_del in Hy. apply Hr. tauto.
Qed.

Lemma sequential_alike seeds :
  sequential_savings_init ceps seps N D d C L mk cb seeds = sequential_savings_init ceps' seps' N D d' C' L' mk cb seeds.
Proof.
  unfold sequential_savings_init, ss_run. rewrite route_loop_alike; [reflexivity|apply seq_NoDup|].
  apply Forall_forall. intros x Hx. apply in_seq in Hx. lia.
Qed.
End Feas2.

Lemma sequential_spare ceps seps N D d C L mk cb seeds : symmetric D ->
  (forall n, 0 <= d n) -> 0 <= ceps -> demand d (seq 1 (N - 1)) <= C ->
  sequential_savings_init ceps seps N D d (Some C) L mk cb seeds = sequential_savings_init ceps seps N D d None L mk cb seeds.
Proof.
  intros Hs Hd Hc HC. apply sequential_alike; try assumption. intros r (_ & Hn & Hr). unfold feasible.
  assert (H : demand d r <= demand d (seq 1 (N - 1))).
  { apply demand_subset; try assumption. intros x Hx. rewrite Forall_forall in Hr. specialize (Hr x Hx). apply in_seq. lia. }
  unfold within. split; intros [H1 H2]; (split; [|exact H2]); [exact I|]. intros _. lia.
Qed.
