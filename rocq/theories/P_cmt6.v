(** * Two phase heuristic: the associations of phase two *)
From Verif Require Import Spec Spec_inter Spec_savings Spec_rfcs Spec_tyagi Spec_cmt PyBase M_util M_psavings M_cmt P_base P_psavings P_nn2 P_tyagi P_cmt P_cmt2 P_cmt4 Spec.
Require Import ZifyBool ZifyNat Lia Sorting.Sorted.

Section Assoc.
Variables (ceps seps : Z) (D : matrix) (d : demands) (C L : limit) (f : tsp) (mu : Z * Z) (seeds : list nat) (most : bool) (repeated : option nat).
Variables (shuffled : nat -> list nat) (argp : nat -> list Z -> list nat).

Lemma fill_only k : forall cands st inf un made n, let '(_, _, un2, _, _) := p2_fill ceps seps D d C L f k cands st inf un made in
  In n un -> ~ In n un2 -> In n cands.
Proof.
  induction cands as [|i cands IH]; intros st inf un made n; cbn [p2_fill]; [tauto|].
  match goal with |- context [if ?b then _ else _] => destruct b end.
  - specialize (IH st inf un made n). destruct (p2_fill _ _ _ _ _ _ _ k cands st inf un made) as [[[[? ?] ?] ?] ?]. cbn [In]. tauto.
  - destruct (try_insert ceps seps D d C L f st i) as [| |st'].
    + specialize (IH st inf un made n). destruct (p2_fill _ _ _ _ _ _ _ k cands st inf un made) as [[[[? ?] ?] ?] ?]. cbn [In]. tauto.
    + specialize (IH st ((k, i) :: inf) un made n). destruct (p2_fill _ _ _ _ _ _ _ k cands st ((k, i) :: inf) un made) as [[[[? ?] ?] ?] ?]. cbn [In]. tauto.
    + specialize (IH st' inf (dict_del i un) true n). destruct (p2_fill _ _ _ _ _ _ _ k cands st' inf (dict_del i un) true) as [[[[? ?] ?] ?] ?].
      intros H1 H2. destruct (Nat.eq_dec n i) as [->|Hni]; [now left|right]. apply IH; [|exact H2]. apply dict_del_in. now split.
Qed.

(** Positions and routes *)
Lemma star_position idxs n : idxs <> [] -> exists p, r_star D mu seeds argp idxs 1 n = p /\ (p < length idxs)%nat /\
  (forall q, (q < p)%nat -> detour D mu seeds (nth p idxs 0%nat) n < detour D mu seeds (nth q idxs 0%nat) n) /\
  (forall q, (p < q < length idxs)%nat -> detour D mu seeds (nth p idxs 0%nat) n <= detour D mu seeds (nth q idxs 0%nat) n).
Proof.
  intros Hne. unfold r_star. cbn [Nat.eqb orb]. set (key := fun p => - eps_of D mu seeds (nth p idxs 0%nat) n). set (l := range 0 (length idxs)).
  assert (Hl : l <> []) by (unfold l, range; destruct idxs; [easy|discriminate]).
  destruct (first_best_first key l Hl) as (a & b & E & Ha & Hb). set (p := first_best key l) in *. exists p. split; [reflexivity|].
  assert (Hp : In p l) by (rewrite E; apply in_or_app; right; now left). unfold l, range in Hp. apply in_seq in Hp. split; [lia|].
  assert (Hla : length a = p).
  { assert (G : nth_error l (length a) = Some p) by (rewrite E, nth_error_app2, Nat.sub_diag; [reflexivity|lia]). unfold l, range in G.
    assert (Hlt : (length a < length idxs)%nat).
    { apply (f_equal (@length nat)) in E. unfold l, range in E. rewrite seq_length, app_length in E. cbn [length] in E. lia. }
    rewrite (nth_error_nth' _ 0%nat) in G by (rewrite seq_length; lia). rewrite seq_nth in G by lia. injection G as G. lia. }
  assert (Hn : forall q, (q < length idxs)%nat -> nth_error l q = Some q).
  { intros q Hq. unfold l, range. rewrite (nth_error_nth' _ 0%nat) by (rewrite seq_length; lia). rewrite seq_nth by lia. reflexivity. }
  split.
  - intros q Hq. assert (Hin : In q a). { specialize (Hn q ltac:(lia)). rewrite E, nth_error_app1 in Hn by lia. now apply nth_error_In in Hn. }
    specialize (Ha q Hin). unfold key in Ha. change (eps_of D mu seeds) with (detour D mu seeds) in Ha. lia.
  - intros q Hq. assert (Hin : In q b).
    { specialize (Hn q ltac:(lia)). rewrite E, nth_error_app2 in Hn by lia. destruct (q - length a)%nat as [|m] eqn:Em; [lia|]. cbn in Hn. now apply nth_error_In in Hn. }
    specialize (Hb q Hin). unfold key in Hb. change (eps_of D mu seeds) with (detour D mu seeds) in Hb. lia.
Qed.
Lemma nth_cut (l : list nat) p : (p < length l)%nat -> l = firstn p l ++ nth p l 0%nat :: skipn (S p) l.
Proof.
  revert p. induction l as [|x l IH]; intros p Hp; cbn [length] in Hp; [lia|]. destruct p as [|p]; [reflexivity|]. cbn [firstn nth skipn app]. f_equal. apply IH. lia.
Qed.
Lemma in_firstn_nth (l : list nat) p x : In x (firstn p l) -> exists q, (q < p)%nat /\ (q < length l)%nat /\ nth q l 0%nat = x.
Proof.
  revert p. induction l as [|y l IH]; intros p H; [now rewrite firstn_nil in H|]. destruct p as [|p]; [easy|]. cbn [firstn] in H. destruct H as [->|H].
  - exists 0%nat. cbn. repeat split; lia.
  - destruct (IH p H) as (q & H1 & H2 & H3). exists (S q). cbn [length nth]. repeat split; [lia|lia|exact H3].
Qed.
Lemma in_skipn_nth (l : list nat) p x : In x (skipn p l) -> exists q, (p <= q < length l)%nat /\ nth q l 0%nat = x.
Proof.
  revert p. induction l as [|y l IH]; intros p H; [now rewrite skipn_nil in H|]. destruct p as [|p].
  - cbn [skipn] in H. apply (In_nth _ _ 0%nat) in H. destruct H as (q & H1 & H2). exists q. split; [lia|exact H2].
  - cbn [skipn] in H. destruct (IH p H) as (q & H1 & H2). exists (S q). cbn [length nth]. split; [lia|exact H2].
Qed.
Lemma star_best idxs n : idxs <> [] -> best_route D mu seeds idxs (nth (r_star D mu seeds argp idxs 1 n) idxs 0%nat) n.
Proof.
  intros Hne. destruct (star_position idxs n Hne) as (p & -> & Hp & Ha & Hb). exists (firstn p idxs), (skipn (S p) idxs). split; [now apply nth_cut|]. split.
  - intros q Hq. apply in_firstn_nth in Hq. destruct Hq as (i & H1 & H2 & <-). now apply Ha.
  - intros q Hq. apply in_skipn_nth in Hq. destruct Hq as (i & H1 & <-). apply Hb. lia.
Qed.
Lemma best_unique idxs k k' n : NoDup idxs -> best_route D mu seeds idxs k n -> best_route D mu seeds idxs k' n -> k = k'.
Proof.
  intros Hnd (a & b & E & Ha & Hb) (a' & b' & E' & Ha' & Hb'). destruct (Nat.eq_dec k k') as [H|H]; [exact H|exfalso].
  assert (Hk : In k (a' ++ k' :: b')) by (rewrite <- E', E; apply in_or_app; right; now left).
  assert (Hk' : In k' (a ++ k :: b)) by (rewrite <- E, E'; apply in_or_app; right; now left).
  apply in_app_or in Hk, Hk'. destruct Hk as [Hk|[Hk|Hk]]; [|now symmetry in Hk|]; destruct Hk' as [Hk'|[Hk'|Hk']]; try congruence.
  - specialize (Ha' _ Hk). specialize (Ha _ Hk'). lia.
  - specialize (Ha' _ Hk). specialize (Hb _ Hk'). lia.
  - specialize (Hb' _ Hk). specialize (Ha _ Hk'). lia.
  - (* k' after k and k after k' *)
    rewrite E in E'. clear - Hnd E E' Hk Hk' H. rewrite E in Hnd. clear E. revert a' E'. induction a as [|x a IH]; intros a' E'.
    + destruct a' as [|y a']; [injection E' as E1 _; congruence|]. injection E' as E1 E2. cbn [app] in Hnd. inversion Hnd as [|? ? Hn _]. apply Hn. rewrite E2. apply in_or_app. right. now right.
    + destruct a' as [|y a'].
      * injection E' as E1 E2. cbn [app] in Hnd. inversion Hnd as [|? ? Hn _]. apply Hn. rewrite E1. apply in_or_app. right. now right.
      * injection E' as E1 E2. inversion Hnd as [|? ? _ Hn]. exact (IH Hn a' E2).
Qed.

(** ** One round *)
Lemma assoc_in (stars un : list nat) (p n : nat) : In n (map snd (filter (fun q => Nat.eqb (fst q) p) (combine stars un))) -> exists s, In (s, n) (combine stars un) /\ s = p.
Proof.
  intros H. apply in_map_iff in H. destruct H as ([s m] & Em & H). cbn in Em. subst m. apply filter_In in H. destruct H as [H1 H2]. apply Nat.eqb_eq in H2. now exists s.
Qed.
Lemma combine_map {A} (g : nat -> A) un s n : In (s, n) (combine (map g un) un) -> s = g n /\ In n un.
Proof using. clear. induction un as [|x un IH]; cbn; [easy|]. intros [H|H]; [injection H as <- <-; split; [reflexivity|now left]|]. destruct (IH H). split; [assumption|now right]. Qed.
Lemma count_lists (g : nat -> nat) un p : count_occ Nat.eq_dec (map g un) p = length (filter (fun n => Nat.eqb (g n) p) un).
Proof.
  induction un as [|x un IH]; [reflexivity|]. cbn [map count_occ filter]. destruct (Nat.eq_dec (g x) p) as [E|E].
  - rewrite E, Nat.eqb_refl. cbn [length]. now rewrite IH.
  - destruct (Nat.eqb_spec (g x) p); [contradiction|exact IH].
Qed.

Lemma round_associates st0 st st' pts :
  p2_refill repeated shuffled st0 = Some st -> p2_nth st = 1%nat -> p2_idxs st <> [] -> NoDup (p2_idxs st) -> NoDup (p2_unrouted st) ->
  p2_round ceps seps D d C L f mu seeds most repeated shuffled argp st0 = inl (st', pts) ->
  exists k, In k (p2_idxs st) /\ (forall q, q <> k -> nth_error (p2_routes st') q = nth_error (p2_routes st) q) /\
    (forall n, In n (p2_unrouted st) -> ~ In n (p2_unrouted st') -> best_route D mu seeds (p2_idxs st) k n) /\
    (most = true -> forall q Q, In q (p2_idxs st) -> NoDup Q -> (forall n, In n Q -> In n (p2_unrouted st) /\ best_route D mu seeds (p2_idxs st) q n) ->
       exists P, NoDup P /\ (forall n, In n P -> In n (p2_unrouted st) /\ best_route D mu seeds (p2_idxs st) k n) /\ (length Q <= length P)%nat).
Proof.
  intros Er En Hne Hnd Hun. unfold p2_round. rewrite Er, En. cbn [Nat.eqb negb andb].
  set (idxs := p2_idxs st) in *. set (un := p2_unrouted st) in *. set (stars := map (r_star D mu seeds argp idxs 1) un).
  set (p := chosen_position most idxs stars). cbv zeta.
  set (k := nth p idxs 0%nat). set (cands := p2_candidates _ _ _ k _ _).
  pose proof (fill_only k cands (nth k (p2_routes st) (mkrs [] 0 0 true)) (p2_infeasible st) un (p2_made st)) as Hf.
  destruct (p2_fill ceps seps D d C L f k cands _ _ un _) as [[[[r inf] un2] made] pts2]. intros E. injection E as <- _.
  assert (Hp : (p < length idxs)%nat).
  { unfold p, chosen_position. destruct most; [|destruct idxs; [easy|cbn; lia]].
    destruct (first_best_in (fun p => Z.of_nat (count_occ Nat.eq_dec stars p)) (range 0 (length idxs))) as [H _]; [unfold range; destruct idxs; [easy|discriminate]|].
    unfold range in *. apply in_seq in H. lia. }
  exists k. split; [now apply nth_In|]. split; [|split].
  - intros q Hq. cbn [p2_routes]. destruct made; [|reflexivity]. clear - Hq.
    assert (G : forall (l : list rstate) k q, q <> k -> nth_error (set_nth k r l) q = nth_error l q).
    { clear. induction l as [|x l IH]; intros k q Hq; [destruct k; reflexivity|]. destruct k as [|k], q as [|q]; cbn; try congruence; try reflexivity. apply IH. lia. }
    now apply G.
  - cbn [p2_unrouted]. intros n Hn Hn2. specialize (Hf n Hn Hn2). unfold cands in Hf. apply (Permutation_in _ (p2_candidates_perm D mu seeds _ _ _)) in Hf.
    apply assoc_in in Hf. destruct Hf as (s & Hs & Es). unfold stars in Hs. apply combine_map in Hs. destruct Hs as [Hs _]. unfold k. rewrite <- Es, Hs. now apply star_best.
  - intros Hm q Q Hq HQ Hall. exists (filter (fun n => Nat.eqb (r_star D mu seeds argp idxs 1 n) p) un). split; [now apply NoDup_filter|]. split.
    + intros n Hn. apply filter_In in Hn. destruct Hn as [Hn He]. apply Nat.eqb_eq in He. split; [exact Hn|]. unfold k. rewrite <- He. now apply star_best.
    + apply (In_nth _ _ 0%nat) in Hq. destruct Hq as (p' & Hp' & Eq).
      assert (HQ' : incl Q (filter (fun n => Nat.eqb (r_star D mu seeds argp idxs 1 n) p') un)).
      { intros n Hn. destruct (Hall n Hn) as [H1 H2]. apply filter_In. split; [exact H1|]. apply Nat.eqb_eq.
        pose proof (best_unique idxs _ _ n Hnd (star_best idxs n Hne) H2) as Eb. rewrite <- Eq in Eb.
        destruct (star_position idxs n Hne) as (pp & Ep & Hpp & _). rewrite Ep in *. apply (NoDup_nth idxs 0%nat); assumption. }
      apply NoDup_incl_length in HQ'; [|exact HQ]. transitivity (length (filter (fun n => Nat.eqb (r_star D mu seeds argp idxs 1 n) p') un)); [exact HQ'|].
      rewrite <- !count_lists. fold stars. unfold p, chosen_position. rewrite Hm.
      destruct (first_best_in (fun p => Z.of_nat (count_occ Nat.eq_dec stars p)) (range 0 (length idxs))) as [_ H]; [unfold range; destruct idxs; [easy|discriminate]|].
      specialize (H p'). unfold range in H at 1. specialize (H ltac:(apply in_seq; lia)). lia.
Qed.
End Assoc.

(** ** The order on the route *)
Lemma gt_sorted l : StronglySorted (fun x y => fst y <= fst x) (pair_sort (fun a b => pair_lt b a) l).
Proof.
  unfold pair_sort. induction l as [|a l IH]; cbn [fold_right]; [constructor|]. induction IH as [|b t Ht IHt Hb]; cbn [pair_insert]; [repeat constructor|].
  destruct (pair_lt a b) eqn:E.
  - constructor; [exact IHt|]. apply Forall_forall. intros x Hx.
    assert (G : forall t, In x (pair_insert (fun a b => pair_lt b a) a t) -> x = a \/ In x t).
    { clear. induction t as [|b t IH]; cbn; [intros [<-|[]]; now left|]. destruct (pair_lt a b); cbn; intuition. }
    apply G in Hx. unfold pair_lt in E. destruct Hx as [->|Hx]; [lia|]. exact (proj1 (Forall_forall _ _) Hb x Hx).
  - constructor; [now constructor|]. unfold pair_lt in E. constructor; [lia|]. apply Forall_forall. intros x Hx. pose proof (proj1 (Forall_forall _ _) Hb x Hx). cbn in H. lia.
Qed.
Lemma by_regret D mu seeds k others assoc :
  Permutation (p2_candidates D mu seeds k others assoc) assoc /\
  forall a i j b, p2_candidates D mu seeds k others assoc = a ++ i :: j :: b -> forall x y, regret D mu seeds others k i x -> regret D mu seeds others k j y -> y <= x.
Proof.
  split; [apply p2_candidates_perm|]. intros a i j b E x y Hx Hy. unfold p2_candidates in E. cbv zeta in E.
  set (sigma := fun n : nat => match others with [] => - eps_of D mu seeds k n
    | r :: t => fold_left (fun b q => Z.min b (eps_of D mu seeds q n)) t (eps_of D mu seeds r n) - eps_of D mu seeds k n end).
  change (map snd (pair_sort (fun a b => pair_lt b a) (map (fun n => (sigma n, n)) assoc)) = a ++ i :: j :: b) in E.
  assert (HS : forall n, regret D mu seeds others k n (sigma n)).
  { intros n. unfold regret, sigma. change (eps_of D mu seeds) with (detour D mu seeds). destruct others as [|r t]; [reflexivity|].
    assert (G : forall t m, (exists q, In q (r :: t) /\ fold_left (fun b q => Z.min b (detour D mu seeds q n)) t m = detour D mu seeds q n \/ fold_left (fun b q => Z.min b (detour D mu seeds q n)) t m = m) /\
       (fold_left (fun b q => Z.min b (detour D mu seeds q n)) t m <= m /\ forall q, In q t -> fold_left (fun b q => Z.min b (detour D mu seeds q n)) t m <= detour D mu seeds q n)).
    { clear. induction t as [|z t IH]; intros m; cbn [fold_left]; [split; [exists r; now right|split; [lia|easy]]|].
      destruct (IH (Z.min m (detour D mu seeds z n))) as ((q & Hq) & H1 & H2). split.
      - destruct Hq as [[Hq Eq]|Eq]; [exists q; left; split; [destruct Hq as [->|Hq]; [now left|right; now right]|exact Eq]|].
        destruct (Z.min_spec m (detour D mu seeds z n)) as [[_ Em]|[_ Em]]; rewrite Em in Eq |- *; [exists r; now right|exists z; left; split; [right; now left|exact Eq]].
      - split; [lia|]. intros q' [<-|Hq']; [lia|now apply H2]. }
    destruct (G t (detour D mu seeds r n)) as ((q & Hq) & H1 & H2). split.
    - destruct Hq as [[Hq Eq]|Eq]; [exists q; split; [exact Hq|now rewrite Eq]|exists r; split; [now left|now rewrite Eq]].
    - intros q' [<-|Hq']; [lia|]. specialize (H2 q' Hq'). lia. }
  assert (HU : forall n u v, regret D mu seeds others k n u -> regret D mu seeds others k n v -> u = v).
  { intros n u v. unfold regret. destruct others as [|r t]; [congruence|]. intros ((q & Hq & ->) & H1) ((q' & Hq' & ->) & H2). specialize (H1 q' Hq'). specialize (H2 q Hq). lia. }
  rewrite (HU _ _ _ Hx (HS i)), (HU _ _ _ Hy (HS j)).
  pose proof (gt_sorted (map (fun n => (sigma n, n)) assoc)) as Hsrt. set (l := pair_sort _ _) in *.
  assert (Hl : forall q, In q l -> fst q = sigma (snd q)).
  { intros q Hq. unfold l in Hq. apply (Permutation_in _ (pair_sort_perm _ _)) in Hq. apply in_map_iff in Hq. destruct Hq as (n & <- & _). reflexivity. }
  clearbody l. revert a E. induction l as [|q l IH]; intros a E; [destruct a; discriminate|]. apply StronglySorted_inv in Hsrt. destruct Hsrt as [H1 H2]. destruct a as [|z a].
  - cbn [map app] in E. injection E as E1 E2. destruct l as [|q' l]; [discriminate|]. cbn [map] in E2. injection E2 as E2 _.
    inversion H2 as [|? ? H3 _]. rewrite (Hl q (or_introl eq_refl)), (Hl q' (or_intror (or_introl eq_refl))), E1, E2 in H3. exact H3.
  - cbn [map app] in E. injection E as _ E. apply (IH H1 (fun q Hq => Hl q (or_intror Hq)) a E).
Qed.
