(** * Wren and Holliday: delete and complain *)
From Verif Require Import Spec Spec_ls Spec_inter PyBase M_util M_routedata M_intra M_inter M_driver Spec_driver M_psavings
     P_base P_cvrp P_rd P_scan P_intra P_intra2 P_inter P_inter2 P_inter3 P_driver P_driver2 P_mj2 M_wh P_wh.
From Coq Require Import ZifyBool ZifyNat Lia List Permutation.
Import ListNotations.
Local Open Scope Z_scope.

Lemma empty_iff r rd : rd_route rd = wrap r -> rd_is_empty rd = negb (nonempty r).
Proof.
  intros H. destruct r as [|x r].
  - cbn. apply rd_is_empty_spec. right. exact H.
  - cbn. destruct (rd_is_empty rd) eqn:E; [|reflexivity]. apply rd_is_empty_spec in E as [E|E]; rewrite H in E; [discriminate|].
    injection E as -> E. destruct r; discriminate.
Qed.
Lemma inner_wrap r rd : rd_route rd = wrap r -> inner rd = r.
Proof. intros H. unfold inner. rewrite H. apply slice_wrap. Qed.
Lemma filter_exact (R : list nat -> routedata -> Prop) : (forall r rd, R r rd -> rd_route rd = wrap r) ->
  forall rs rds, Forall2 R rs rds -> Forall2 R (filter nonempty rs) (filter (fun r => negb (rd_is_empty r)) rds).
Proof.
  intros HR rs rds H. induction H as [|r rd rs rds H1 H2 IH]; [constructor|]. cbn [filter]. rewrite (empty_iff r rd (HR _ _ H1)), Bool.negb_involutive.
  destruct (nonempty r); [now constructor|assumption].
Qed.
Lemma for_break_keep {A S} (P : S -> Prop) (f : A -> S -> S * bool) : forall l s,
  (forall x s, In x l -> P s -> P (fst (f x s))) -> P s -> P (fst (for_break l f s)).
Proof.
  induction l as [|x l IH]; intros s H Hs; [exact Hs|]. cbn [for_break]. pose proof (H x s (or_introl eq_refl) Hs) as H1.
  destruct (f x s) as [s' [|]]; cbn [fst] in *; [exact H1|]. apply IH; [intros; apply H; [now right|assumption]|exact H1].
Qed.

Lemma filter_shorter {A} (f : A -> bool) l : (length (filter f l) <= length l)%nat.
Proof. induction l as [|x l IH]; [easy|]. cbn. destruct (f x); cbn; lia. Qed.

Section Delete.
Variables (eps : Z) (D : matrix) (d : demands) (C L : limit).
Notation exact := (exact_rd D d C).
Notation feas := (feasible D d C L eps eps).
Notation cost := (routes_cost D).
Hypothesis Heps : 0 <= eps.
Hypothesis HT : triangle D.
Hypothesis HD0 : D 0%nat 0%nat = 0.

Definition others_of (i : nat) (rs : list (list nat)) : list (list nat) := filter nonempty (firstn i rs ++ skipn (S i) rs).
Lemma firstn_F2 {A B} (R : A -> B -> Prop) n : forall l l', Forall2 R l l' -> Forall2 R (firstn n l) (firstn n l').
Proof using Type. induction n; intros l l' H; [constructor|]. destruct H; cbn; [constructor|constructor; auto]. Qed.
Lemma skipn_F2 {A B} (R : A -> B -> Prop) n : forall l l', Forall2 R l l' -> Forall2 R (skipn n l) (skipn n l').
Proof using Type. induction n; intros l l' H; [exact H|]. destruct H; cbn; [constructor|auto]. Qed.
Lemma others_exact i rs rds : Forall2 exact rs rds -> Forall2 exact (others_of i rs) (others i rds).
Proof using Type.
  intros H. apply filter_exact; [intros r rd (H1 & _); exact H1|]. apply Forall2_app; [now apply firstn_F2|now apply skipn_F2].
Qed.
Lemma split_nth {A} i (l : list A) z : (i < length l)%nat -> l = firstn i l ++ nth i l z :: skipn (S i) l.
Proof using Type. revert l. induction i; intros [|x l] H; cbn in *; try lia; [reflexivity|]. f_equal. apply IHi. lia. Qed.
Lemma others_perm i rs : (i < length rs)%nat -> Permutation (nth i rs [] ++ concat (others_of i rs)) (concat rs).
Proof using Type.
  intros H. unfold others_of. rewrite concat_nonempty. rewrite (split_nth i rs [] H) at 4. rewrite !concat_app. cbn [concat].
  rewrite !app_assoc. apply Permutation_app_tail. apply Permutation_app_comm.
Qed.
Lemma others_length i rs : (i < length rs)%nat -> (S (length (others_of i rs)) <= length rs)%nat.
Proof using Type.
  intros H. unfold others_of. pose proof (filter_shorter nonempty (firstn i rs ++ skipn (S i) rs)) as H1.
  rewrite app_length, firstn_length, skipn_length in H1. clear - H H1. lia.
Qed.

Definition deleted_plan (rs : list (list nat)) (result : list routedata) : Prop :=
  exists rs', Forall2 exact ([] :: rs') result /\ (S (length rs') <= length rs)%nat /\ Permutation (concat rs') (concat rs) /\
    (Forall feas rs -> Forall feas rs').
Lemma delete_best_ok rs rds : Forall2 exact rs rds ->
  match snd (delete_best eps D d C L rds) with Some result => deleted_plan rs result | None => True end.
Proof using HT HD0.
  intros HF. unfold delete_best.
  assert (G : forall l s, (forall i, In i l -> (i < length rds)%nat) ->
    match snd s with Some result => deleted_plan rs result | None => True end ->
    match snd (fold_left (fun s i =>
      let rd1 := nth i rds empty_rd in
      if rd_is_empty rd1 then s
      else match do_redistribute_move eps rd1 (others i rds) D d C L true (fst s) 0 with
           | Some (result, delta) => if lt_inf delta (fst s) then (Some delta, Some result) else s
           | None => s
           end) l s) with Some result => deleted_plan rs result | None => True end).
  { induction l as [|i l IH]; intros s Hl Hs; cbn [fold_left]; [exact Hs|]. apply IH; [intros; apply Hl; now right|]. cbv zeta.
    destruct (rd_is_empty _) eqn:E; [exact Hs|].
    destruct (do_redistribute_move eps (nth i rds empty_rd) (others i rds) D d C L true (fst s) 0) as [[result delta]|] eqn:E1; [|exact Hs].
    destruct (lt_inf delta (fst s)); [|exact Hs]. cbn [snd].
    assert (Hi : (i < length rs)%nat) by (rewrite (Forall2_len _ _ _ HF); apply Hl; now left).
    pose proof (Forall2_nth_rel _ _ _ i HF Hi) as HX.
    destruct (redistribute_result eps D d C L true (fst s) 0 (nth i rs []) (others_of i rs) _ _ _ _ (or_intror HT) (proj1 HX) (others_exact i rs rds HF) E1)
      as (rds'' & rs' & -> & A1 & A2 & A3 & _ & A5 & _).
    exists rs'. split; [constructor; [now apply empty_exact|exact A1]|]. split; [rewrite A2; now apply others_length|].
    split; [etransitivity; [exact A3|now apply others_perm]|]. intros HG. apply A5. unfold others_of.
    rewrite Forall_forall in *. intros r Hr. apply filter_In in Hr as [Hr _]. apply HG.
    rewrite (split_nth i rs [] Hi). apply in_app_or in Hr as [Hr|Hr]; apply in_or_app; [now left|right; now right]. }
  apply G; [|exact I]. intros i Hi. now apply in_range in Hi.
Qed.

End Delete.

(** ** complain *)
Section Complain.
Variables (eps : Z) (D : matrix) (d : demands) (C L : limit) (set_order : list nat -> list nat).
Notation exact := (exact_rd D d C).
Notation feas := (feasible D d C L eps eps).
Notation cost := (routes_cost D).

(** Customer [x] of route [i] is replaced by [n]. *)
Definition swap_at (rs : list (list nat)) (n i x : nat) (r' : list nat) : Prop :=
  (i < length rs)%nat /\ exists a b, nth i rs [] = a ++ [x] ++ b /\ r' = a ++ [n] ++ b /\ feas r'.
Definition fit_ok (rs : list (list nat)) (n : nat) (f : fit) : Prop :=
  exists x r1 r2 m1 m2, swap_at rs n (ft_rd1_idx f) x r1 /\ (ft_rd2_idx f < length rs)%nat /\ ft_rd2_idx f <> ft_rd1_idx f /\
    nth (ft_rd2_idx f) rs [] = m1 ++ m2 /\ r2 = m1 ++ [x] ++ m2 /\ feas r2 /\ exact r1 (ft_new_rd1 f) /\ exact r2 (ft_new_rd2 f).
Definition best_ok (rs : list (list nat)) (rds : list routedata) (n : nat) (b : Z * nat * nat) : Prop :=
  let '(delta, i, p) := b in
  exists r', swap_at rs n i (at_ (rd_route (nth i rds empty_rd)) p) r' /\
    delta = route_cost D r' - route_cost D (nth i rs []) /\
    replaced (rd_route (nth i rds empty_rd)) p n = wrap r' /\
    demand d r' = demand d (nth i rs []) - d (at_ (rd_route (nth i rds empty_rd)) p) + d n.

Lemma refit_ok rs rds i x k rd : Forall2 exact rs rds -> refit eps D d C L i x rds = Some (k, rd) ->
  (k < length rs)%nat /\ k <> i /\ exists m1 m2, nth k rs [] = m1 ++ m2 /\ feas (m1 ++ [x] ++ m2) /\ exact (m1 ++ [x] ++ m2) rd.
Proof using Type.
  intros HF. unfold refit.
  set (P := fun s : option (nat * routedata) => match s with Some (k, rd) =>
    (k < length rs)%nat /\ k <> i /\ exists m1 m2, nth k rs [] = m1 ++ m2 /\ feas (m1 ++ [x] ++ m2) /\ exact (m1 ++ [x] ++ m2) rd | None => True end).
  match goal with |- fst ?X = _ -> _ => assert (H : P (fst X)) end.
  { apply for_break_keep; [|exact I]. intros j s Hj Hs. apply in_range in Hj. destruct (Nat.eqb i j) eqn:E; [exact Hs|]. apply Nat.eqb_neq in E.
    assert (Hj' : (j < length rs)%nat) by (rewrite (Forall2_len _ _ _ HF); exact Hj).
    pose proof (do_insert_customer_spec eps D d C L true _ _ x (Forall2_nth_rel _ _ _ j HF Hj')) as HI.
    destruct (do_insert_customer eps x (nth j rds empty_rd) D d C L true None) as [[l delta]|]; [|exact Hs].
    destruct HI as (m1 & m2 & rd' & A1 & -> & A2 & A3 & A4 & _). cbn [fst]. split; [exact Hj'|]. split; [congruence|]. now exists m1, m2. }
  intros E. rewrite E in H. exact H.
Qed.

Lemma replaced_wrap a x b n : replaced (wrap (a ++ [x] ++ b)) (S (length a)) n = wrap (a ++ [n] ++ b).
Proof using Type.
  unfold replaced. rewrite Nat.add_1_r, from_wrap_after by reflexivity. rewrite (to_wrap a ([x] ++ b)) by reflexivity.
  unfold wrap. cbn [app]. f_equal. rewrite <- app_assoc. reflexivity.
Qed.

Lemma search_ok n rs rds : Forall2 exact rs rds ->
  (forall b, fst (complain_search eps D d C L n rds) = Some b -> best_ok rs rds n b) /\
  (forall f, snd (complain_search eps D d C L n rds) = Some f -> fit_ok rs n f).
Proof using Type.
  intros HF. unfold complain_search.
  set (P := fun s : option (Z * nat * nat) * option fit => (forall b, fst s = Some b -> best_ok rs rds n b) /\ (forall f, snd s = Some f -> fit_ok rs n f)).
  match goal with |- context [fst (fst ?X)] => change (P (fst X)) end.
  apply for_break_keep; [|split; discriminate]. intros i s Hi Hs. apply in_range in Hi. unfold complain_route.
  destruct (rd_is_empty _); [exact Hs|]. apply for_break_keep; [|exact Hs]. clear s Hs. intros p s Hp Hs. cbv zeta.
  assert (Hi' : (i < length rs)%nat) by (rewrite (Forall2_len _ _ _ HF); exact Hi).
  pose proof (Forall2_nth_rel _ _ _ i HF Hi') as HX. pose proof HX as (X1 & X2 & X3).
  unfold range in Hp. apply in_seq in Hp. rewrite X1 in Hp.
  assert (Hp' : (1 <= p < length (wrap (nth i rs [])) - 1)%nat) by (clear - Hp; lia).
  apply pos_customer in Hp' as (a & x & b & Er & Ep). rewrite X1, Er.
  rewrite !(at_wrap_mid a x b p Ep). rewrite (at_wrap_after a x b (p + 1)) by (clear - Ep; lia). rewrite (at_wrap_pre a ([x] ++ b) (p - 1)) by (clear - Ep; lia).
  match goal with |- context [exceeds C eps ?X] => destruct (exceeds C eps X) eqn:EC end; [exact Hs|].
  match goal with |- context [exceeds L eps ?X] => destruct (exceeds L eps X) eqn:EL end; [exact Hs|].
  set (r' := a ++ [n] ++ b). set (delta := D (last a 0%nat) n + D n (hd 0%nat b) - D (last a 0%nat) x - D x (hd 0%nat b)) in *.
  assert (Hdel : delta = route_cost D r' - route_cost D (nth i rs [])).
  { rewrite Er. unfold r', delta. rewrite !rc_mid. clear. lia. }
  assert (Hdem : demand d r' = demand d (nth i rs []) - d x + d n).
  { rewrite Er. unfold r'. rewrite !demand_mid. clear. lia. }
  assert (Hcl : limit_set C -> (match truthy C with Some _ => odem (nth i rds empty_rd) - d x + d n | None => 0 end) = demand d r').
  { intros Hc. rewrite (exact_dem _ _ _ _ _ HX Hc), Hdem. unfold limit_set, truthy in *. destruct C as [c|]; [|easy]. now destruct (Z.eqb_spec c 0). }
  assert (Hfeas : feas r').
  { split.
    - apply exceeds_within. rewrite <- EC. apply exceeds_ext. intros Hc. symmetry. now apply Hcl.
    - apply exceeds_within. rewrite <- EL. f_equal. rewrite X2. clear - Hdel. lia. }
  assert (Hsw : swap_at rs n i x r') by (split; [exact Hi'|]; exists a, b; auto).
  assert (Hbest : best_ok rs rds n (delta, i, p)).
  { exists r'. rewrite X1, Er, (at_wrap_mid a x b p Ep). split; [exact Hsw|]. rewrite <- Er. split; [exact Hdel|]. split; [|exact Hdem].
    rewrite Er, Ep. apply replaced_wrap. }
  assert (Hb : forall bb, match fst s with None => Some (delta, i, p) | Some (b0, _, _) => if delta <? b0 then Some (delta, i, p) else fst s end = Some bb -> best_ok rs rds n bb).
  { intros bb. destruct (fst s) as [[[b0 i0] p0]|] eqn:Es; [|intros [= <-]; exact Hbest]. destruct (delta <? b0); [intros [= <-]; exact Hbest|]. intros [= <-]. now apply (proj1 Hs). }
  destruct (refit eps D d C L i x rds) as [[k rd]|] eqn:ER; cbn [fst snd].
  - split; [exact Hb|]. intros f [= <-]. destruct (refit_ok rs rds i x k rd HF ER) as (K1 & K2 & m1 & m2 & K3 & K4 & K5).
    exists x, r', (m1 ++ [x] ++ m2), m1, m2. cbn [ft_rd1_idx ft_rd2_idx ft_new_rd1 ft_new_rd2].
    split; [exact Hsw|]. split; [exact K1|]. split; [exact K2|]. split; [exact K3|]. split; [reflexivity|]. split; [exact K4|]. split; [|exact K5].
    split; [cbn [rd_route]; rewrite Ep; apply replaced_wrap|]. split; [cbn [rd_cost]; rewrite X2; clear - Hdel; lia|].
    intros Hc. cbn [rd_demand]. f_equal. now apply Hcl.
  - split; [exact Hb|discriminate].
Qed.
End Complain.
