(** Proofs about the cones around the depot, continued: the whole circle and
    the seeds. *)
From Coq Require Import ZArith QArith Qminmax Qround List Bool Arith Lia Lqa Permutation.
From Verif Require Import M_cones Spec_cones P_cones.
Import ListNotations.
Open Scope Q_scope.

Lemma last_default : forall (l : list Q) d d', l <> [] -> last l d = last l d'.
Proof.
  induction l as [|x l IH]; intros d d' H; [congruence|]. destruct l as [|y l]; [reflexivity|].
  change (last (y :: l) d = last (y :: l) d'). apply IH. discriminate.
Qed.

(** *** Angles *)
Section ANGLES.
Variable turn : Q.
Hypothesis Hturn : 0 < turn.

Lemma forward_app : forall a b q, forward turn q a -> forward turn (final_phi turn q a) b ->
  forward turn q (a ++ b).
Proof.
  induction a as [|p a IH]; intros b q H1 H2; [exact H2|].
  cbn [app forward final_phi fold_left] in *. destruct H1. split; [assumption|]. apply IH; assumption.
Qed.

Lemma final_app a b q : final_phi turn q (a ++ b) = final_phi turn (final_phi turn q a) b.
Proof. unfold final_phi. apply fold_left_app. Qed.

Lemma ascending_tl a l : ascending (a :: l) -> ascending l.
Proof. destruct l; cbn; tauto. Qed.

(** going up without passing the start *)
Lemma forward_asc : forall l q, ascending (q :: map phi_of l) ->
  forward turn q l /\ final_phi turn q l = last (map phi_of l) q.
Proof.
  induction l as [|p l IH]; intros q H; [cbn; auto|].
  cbn [map] in H. destruct H as [H1 H2].
  assert (Ea : adjusted turn q (phi_of p) = phi_of p).
  { unfold adjusted. apply Qltb_false in H1. rewrite H1. reflexivity. }
  cbn [forward final_phi fold_left]. rewrite Ea.
  destruct (IH (phi_of p) H2) as [H3 H4]. split; [split; [lra|exact H3]|].
  unfold final_phi in H4. rewrite H4. cbn [map].
  destruct (map phi_of l) as [|z l0] eqn:E; [reflexivity|].
  change (last (z :: l0) (phi_of p) = last (z :: l0) q). apply last_default. discriminate.
Qed.

(** going up after passing the start *)
Lemma forward_wrapped : forall l q, ascending (map phi_of l) ->
  match l with [] => True | p :: _ => q <= phi_of p + turn end ->
  forward turn q l /\ (l <> [] -> final_phi turn q l <= last (map phi_of l) 0 + turn).
Proof.
  induction l as [|p l IH]; intros q H1 H2; [cbn; split; [auto|congruence]|].
  cbn [forward final_phi fold_left map] in *.
  pose proof (adjusted_le turn Hturn q (phi_of p)) as Ha.
  destruct (IH (adjusted turn q (phi_of p)) (ascending_tl _ _ H1)) as [H3 H4].
  { destruct l as [|p' l]; [exact I|]. cbn [map] in H1. destruct H1 as [H1 _]. lra. }
  split; [split; [exact H2|exact H3]|]. intros _.
  destruct l as [|p' l]; [exact Ha|]. apply H4. discriminate.
Qed.

End ANGLES.

Lemma ascending_app_l : forall a b, ascending (a ++ b) -> ascending a.
Proof.
  induction a as [|x a IH]; intros b H; [exact I|].
  destruct a as [|y a]; [exact I|]. cbn [app ascending] in *. destruct H as [H1 H2].
  split; [exact H1|]. apply (IH b). exact H2.
Qed.

Lemma ascending_app_r : forall a b, ascending (a ++ b) -> ascending b.
Proof. induction a as [|x a IH]; intros b H; [exact H|]. apply IH. apply (ascending_tl x). exact H. Qed.

Lemma ascending_last : forall a x b, ascending (a ++ x :: b) -> a <> [] -> last a 0 <= x.
Proof.
  induction a as [|y a IH]; intros x b H Hn; [congruence|].
  destruct a as [|z a].
  - cbn in *. tauto.
  - apply (IH x b); [|discriminate]. apply (ascending_tl y). exact H.
Qed.

Lemma last_in : forall (l : list Q) d, l <> [] -> In (last l d) l.
Proof.
  induction l as [|x l IH]; intros d H; [congruence|]. destruct l as [|y l]; [left; reflexivity|].
  right. apply IH. discriminate.
Qed.

Lemma last_map (l : list place) : l <> [] -> phi_of (last l (0, 0, 0%nat)) = last (map phi_of l) 0.
Proof.
  induction l as [|x l IH]; intros H; [congruence|]. destruct l as [|y l]; [reflexivity|].
  apply IH. discriminate.
Qed.

Lemma nth_last_firstn (l : list place) t : (t < length l)%nat ->
  phi_of (nth t l (0, 0, 0%nat)) = last (map phi_of (firstn (S t) l)) 0.
Proof.
  revert t. induction l as [|x l IH]; intros t H; [cbn in H; lia|].
  destruct t as [|t]; [reflexivity|].
  cbn [nth]. rewrite IH by (cbn in H; lia).
  change (firstn (S (S t)) (x :: l)) with (x :: firstn (S t) l).
  destruct l as [|y l]; [cbn in H; lia|]. reflexivity.
Qed.

(** The angle before the view *)
Lemma first_prev_spec turn sweep trial :
  (trial < length sweep)%nat ->
  first_prev_phi turn sweep trial =
  match trial with
  | O => last (map phi_of sweep) 0 - turn
  | S _ => last (map phi_of (firstn trial sweep)) 0
  end.
Proof.
  intros H. unfold first_prev_phi. destruct trial as [|t].
  - fold (phi_of (last sweep (0, 0, 0%nat))). rewrite last_map; [reflexivity|].
    intros ->. cbn in H. lia.
  - fold (phi_of (nth t sweep (0, 0, 0%nat))). apply nth_last_firstn. lia.
Qed.

Lemma view_split (sweep : list place) trial : (trial < length sweep)%nat ->
  exists x rest, skipn trial sweep = x :: rest /\
    circle_view sweep trial = x :: (rest ++ firstn trial sweep) ++ [x].
Proof.
  intros H. destruct (skipn trial sweep) as [|x rest] eqn:E.
  - apply (f_equal (@length place)) in E. rewrite skipn_length in E. cbn in E. lia.
  - exists x, rest. split; [reflexivity|].
    unfold circle_view. rewrite E.
    assert (Ef : firstn (trial + 1) sweep = firstn trial sweep ++ [x]).
    { rewrite <- (firstn_skipn trial sweep) at 1. rewrite E.
      rewrite firstn_app. rewrite firstn_length_le by lia.
      replace (trial + 1 - trial)%nat with 1%nat by lia. cbn [firstn].
      rewrite firstn_all2 by (rewrite firstn_length_le; lia). reflexivity. }
    rewrite Ef. cbn [app]. rewrite app_assoc. reflexivity.
Qed.

(** The weights met on the way are those around the sweep *)
Lemma view_along w sweep trial : (trial < length sweep)%nat ->
  along w (map node_of (circle_view sweep trial)) == around w (map node_of sweep).
Proof.
  intros H. destruct (view_split sweep trial H) as (x & rest & E & Ev). rewrite Ev.
  rewrite <- (firstn_skipn trial sweep) at 2. rewrite E.
  destruct (firstn trial sweep) as [|y a] eqn:Ea.
  - cbn [map app]. rewrite app_nil_r, map_app. cbn [map around app]. reflexivity.
  - cbn [map app around]. rewrite !map_app. cbn [map app].
    rewrite <- !app_assoc. cbn [app].
    change (node_of x :: map node_of rest ++ node_of y :: map node_of a ++ [node_of x])
      with ((node_of x :: map node_of rest) ++ node_of y :: map node_of a ++ [node_of x]).
    rewrite along_app.
    change (node_of y :: map node_of a ++ node_of x :: map node_of rest ++ [node_of y])
      with ((node_of y :: map node_of a) ++ node_of x :: map node_of rest ++ [node_of y]).
    rewrite (along_app w (node_of y :: map node_of a)).
    cbn [app]. lra.
Qed.

(** The angles of the view go forward, and around at most once *)
Lemma view_forward turn sweep trial x rest :
  0 < turn -> (trial < length sweep)%nat -> within_a_turn turn (map phi_of sweep) ->
  skipn trial sweep = x :: rest ->
  let q := first_prev_phi turn sweep trial in
  q <= phi_of x /\
  forward turn (phi_of x) ((rest ++ firstn trial sweep) ++ [x]) /\
  final_phi turn (phi_of x) (rest ++ firstn trial sweep) <= q + turn.
Proof.
  intros Ht Hlt [Hasc Hspan] E q.
  pose proof (firstn_skipn trial sweep) as Es. rewrite E in Es.
  set (a := firstn trial sweep) in *.
  assert (Hal : length a = trial) by (unfold a; apply firstn_length_le; lia).
  rewrite <- Es in Hasc, Hspan. rewrite map_app in Hasc, Hspan. cbn [map] in Hasc, Hspan.
  assert (Hsp : forall u v, In u (map phi_of a ++ phi_of x :: map phi_of rest) ->
                In v (map phi_of a ++ phi_of x :: map phi_of rest) -> v <= u + turn).
  { intros u v Hu Hv. specialize (Hspan u v Hu Hv). lra. }
  assert (Hlast_in : In (last (map phi_of (x :: rest)) 0) (map phi_of a ++ phi_of x :: map phi_of rest)).
  { apply in_app_iff. right. apply (last_in (map phi_of (x :: rest))). discriminate. }
  assert (Eq : q = match trial with O => last (map phi_of (x :: rest)) 0 - turn | S _ => last (map phi_of a) 0 end).
  { unfold q. rewrite first_prev_spec by assumption. destruct trial; [|reflexivity].
    destruct a; [|discriminate]. cbn [app] in Es. rewrite Es. reflexivity. }
  assert (Hax : trial <> 0%nat -> map phi_of a <> []).
  { intros Hn En. apply (f_equal (@length Q)) in En. rewrite map_length in En. cbn in En. lia. }
  assert (Hq : q <= phi_of x).
  { rewrite Eq. destruct trial as [|t].
    - assert (last (map phi_of (x :: rest)) 0 <= phi_of x + turn); [|lra].
      apply Hsp; [|exact Hlast_in]. apply in_app_iff. right. left. reflexivity.
    - apply (ascending_last _ _ (map phi_of rest)); [exact Hasc|apply Hax; discriminate]. }
  split; [exact Hq|].
  pose proof (ascending_app_r _ _ Hasc) as Hasc2.
  destruct (forward_asc turn Ht rest (phi_of x) Hasc2) as [F1 F2].
  assert (Elast : final_phi turn (phi_of x) rest = last (map phi_of (x :: rest)) 0).
  { rewrite F2. cbn [map]. destruct (map phi_of rest) as [|z l] eqn:El; [reflexivity|].
    change (last (phi_of x :: z :: l) 0) with (last (z :: l) 0). apply last_default. discriminate. }
  assert (Hw : forward turn (final_phi turn (phi_of x) rest) (a ++ [x])
    /\ (a ++ [x] <> [] -> final_phi turn (final_phi turn (phi_of x) rest) (a ++ [x]) <= last (map phi_of (a ++ [x])) 0 + turn)).
  { apply forward_wrapped; [exact Ht| |].
    - rewrite map_app. cbn [map].
      apply (ascending_app_l _ (map phi_of rest)). rewrite <- app_assoc. exact Hasc.
    - rewrite Elast. destruct a as [|y a']; cbn [app].
      + apply Hsp; [|exact Hlast_in]. apply in_app_iff. right. left. reflexivity.
      + apply Hsp; [|exact Hlast_in]. left. reflexivity. }
  assert (Hwa : forward turn (final_phi turn (phi_of x) rest) a
    /\ (a <> [] -> final_phi turn (final_phi turn (phi_of x) rest) a <= last (map phi_of a) 0 + turn)).
  { apply forward_wrapped; [exact Ht| |].
    - apply (ascending_app_l _ _ Hasc).
    - rewrite Elast. destruct a as [|y a']; [exact I|].
      apply Hsp; [|exact Hlast_in]. left. reflexivity. }
  split.
  - rewrite <- app_assoc. apply forward_app; [exact F1|exact (proj1 Hw)].
  - rewrite final_app. rewrite Eq. destruct trial as [|t].
    + destruct a; [|discriminate]. cbn [final_phi fold_left]. rewrite Elast. lra.
    + apply (proj2 Hwa). intros En. rewrite En in Hal. discriminate.
Qed.

(** *** The groups of the whole circle *)
Section CIRCLE.
Variables (turn target eps : Q) (w : nat -> nat -> Q) (sweep : list place) (K trial : nat).
Hypotheses (Hturn : 0 < turn) (Htarget : 0 < target) (Heps : 0 < eps) (Hw : forall i j, 0 <= w i j).

Let KQ := inject_Z (Z.of_nat K).
Let final := cone_groups turn target eps w sweep trial.

Lemma start_weighed q : weighed (CS [] 0 0 [] None q) == 0.
Proof. unfold weighed. cbn. lra. Qed.

Lemma final_weighed : weighed final == along w (map node_of (circle_view sweep trial)) /\ 0 <= cum final.
Proof.
  unfold final, cone_groups.
  destruct (fold_weighed turn target eps w Htarget Heps Hw (circle_view sweep trial)
              (CS [] 0 0 [] None (first_prev_phi turn sweep trial))) as [H1 H2]; [cbn; lra|].
  split; [|exact H2]. rewrite H1, start_weighed. cbn [prev_node prev app]. lra.
Qed.

Lemma final_full : full_groups target eps (groups final).
Proof. apply fold_full. constructor. Qed.

(** Not more groups than the weights allow *)
Lemma groups_bound (k : nat) :
  along w (map node_of (circle_view sweep trial)) < inject_Z (Z.of_nat (S k)) * (target - eps) ->
  eps < target ->
  (length (groups final) <= k)%nat.
Proof.
  intros H Het. destruct (Nat.le_gt_cases (length (groups final)) k) as [|Hgt]; [assumption|exfalso].
  pose proof (full_sum target eps _ final_full) as Hs.
  destruct final_weighed as [Hw1 Hc]. unfold weighed in Hw1.
  assert (Hl : inject_Z (Z.of_nat (S k)) <= inject_Z (Z.of_nat (length (groups final)))).
  { rewrite <- Zle_Qle. lia. }
  assert (0 <= (inject_Z (Z.of_nat (length (groups final))) - inject_Z (Z.of_nat (S k))) * (target - eps)).
  { apply Qmult_le_0_compat; lra. }
  lra.
Qed.

Lemma at_most_K :
  along w (map node_of (circle_view sweep trial)) <= KQ * target ->
  (KQ + 1) * eps < target -> (length (groups final) <= K)%nat.
Proof.
  intros H He. assert (HK : 0 <= KQ).
  { unfold KQ. change 0 with (inject_Z 0). rewrite <- Zle_Qle. lia. }
  assert (0 <= KQ * eps) by (apply Qmult_le_0_compat; lra).
  apply groups_bound; [|lra].
  rewrite Nat2Z.inj_succ. unfold Z.succ. rewrite inject_Z_plus. change (inject_Z 1) with 1.
  fold KQ. lra.
Qed.

Lemma exactly_K :
  (forall i j, w i j <= target) ->
  along w (map node_of (circle_view sweep trial)) == KQ * target ->
  (KQ + 1) * eps < target ->
  length (groups final) = K /\ even_groups target (groups final).
Proof.
  intros Hlight Hsum He.
  assert (Hle : (length (groups final) <= K)%nat) by (apply at_most_K; [lra|exact He]).
  destruct (fold_light turn target eps w Htarget Heps Hw Hlight (circle_view sweep trial)
              (CS [] 0 0 [] None (first_prev_phi turn sweep trial))) as [H1 H2]; [cbn; lra|constructor|].
  fold (cone_groups turn target eps w sweep trial) in H1, H2. fold final in H1, H2.
  split; [|exact H2].
  destruct (Nat.eq_dec (length (groups final)) K) as [|Hne]; [assumption|exfalso].
  pose proof (even_sum target _ H2) as Hs.
  destruct final_weighed as [Hw1 Hc]. unfold weighed in Hw1.
  assert (Hl : inject_Z (Z.of_nat (length (groups final))) <= KQ - 1).
  { unfold KQ. setoid_replace (inject_Z (Z.of_nat K) - 1) with (inject_Z (Z.of_nat K - 1)).
    - rewrite <- Zle_Qle. lia.
    - unfold Zminus. rewrite inject_Z_plus. change (inject_Z (-(1))) with (-(1)). lra. }
  assert (0 <= (KQ - 1 - inject_Z (Z.of_nat (length (groups final)))) * target).
  { apply Qmult_le_0_compat; lra. }
  lra.
Qed.

(** *** Sectors of the whole circle *)
Lemma consecutive_within : forall l a, consecutive a l ->
  a <= final_end a l /\ forall b c, In (b, c) l -> a <= b /\ b <= c /\ c <= final_end a l.
Proof.
  induction l as [|[b c] l IH]; intros a H; cbn [consecutive final_end] in *.
  - split; [lra|intros b c []].
  - destruct H as (H1 & H2 & H3). destruct (IH c H3) as [H4 H5]. split; [lra|].
    intros b' c' [E|Hin]; [inversion E; subst; lra|]. destruct (H5 b' c' Hin). lra.
Qed.

Lemma circle_sectors :
  (forall i j, w i j <= target) -> (trial < length sweep)%nat -> within_a_turn turn (map phi_of sweep) ->
  exists first, consecutive first (map sector (groups final)) /\
    forall g, In g (groups final) -> first <= phi1 g /\ phi1 g <= phi2 g /\ phi2 g <= first + turn.
Proof.
  intros Hlight Hlt Hwt.
  destruct (view_split sweep trial Hlt) as (x & rest & E & Ev).
  pose proof (view_forward turn sweep trial x rest Hturn Hlt Hwt E) as (Hq & Hf & Hfin).
  set (q := first_prev_phi turn sweep trial) in *.
  set (l := rest ++ firstn trial sweep) in *.
  set (s0 := CS [] 0 0 [] None q).
  set (s1 := cone_step turn target eps w s0 x).
  assert (Ea : adjusted turn q (phi_of x) = phi_of x).
  { unfold adjusted. assert (X : Qltb (phi_of x) q = false) by (apply Qltb_false; exact Hq). rewrite X. reflexivity. }
  assert (Hp1 : prev_phi s1 = phi_of x).
  { unfold s1. rewrite step_phi. exact Ea. }
  set (ray1 := bisect_angle turn q (phi_of x) (1 # 2)).
  assert (Hr1 : ray1 == q + (phi_of x - q) * (1 # 2)) by (apply bisect_le; assumption).
  assert (Es1 : s1 = CS [] ray1 0 [] (Some (node_of x, snd (fst x), ray1)) (phi_of x)).
  { unfold s1, cone_step, s0. destruct x as [[phi rho] i]. cbn [prev prev_phi groups cum members].
    unfold phi_of in Ea. cbn [fst] in Ea. unfold adjusted in Ea. rewrite Ea. reflexivity. }
  assert (Hok1 : sectors_ok ray1 s1).
  { rewrite Es1. unfold sectors_ok. cbn. repeat split; try lra. }
  assert (Ef : final = fold_left (cone_step turn target eps w) (l ++ [x]) s1).
  { unfold final, cone_groups. rewrite Ev. reflexivity. }
  assert (Hc1 : cum s1 < target) by (rewrite Es1; cbn; lra).
  assert (He1 : even_groups target (groups s1)) by (rewrite Es1; constructor).
  rewrite <- Hp1 in Hf.
  destruct (fold_sectors turn target eps w Hturn Htarget Heps Hw Hlight ray1 (l ++ [x]) s1 Hc1 He1 Hf Hok1)
    as (Hok & _ & _).
  rewrite <- Ef in Hok.
  assert (Hfl : forward turn (prev_phi s1) l /\ final_phi turn (prev_phi s1) l <= phi_of x + turn).
  { revert Hf. generalize (prev_phi s1). clear. induction l as [|p l IH]; intros u H.
    - cbn in *. tauto.
    - cbn [app forward final_phi fold_left] in *. destruct H as [H1 H2].
      destruct (IH _ H2). auto. }
  destruct (fold_light turn target eps w Htarget Heps Hw Hlight l s1 Hc1 He1) as [Hc2 He2].
  destruct (fold_sectors turn target eps w Hturn Htarget Heps Hw Hlight ray1 l s1 Hc1 He1 (proj1 Hfl) Hok1)
    as (_ & _ & Hp2).
  set (s2 := fold_left (cone_step turn target eps w) l s1) in *.
  assert (Ef2 : final = cone_step turn target eps w s2 x).
  { rewrite Ef, fold_left_app. reflexivity. }
  assert (Hpx : prev_phi s2 <= phi_of x + turn) by (rewrite Hp2; apply Hfl).
  pose proof (step_ray turn target eps w Hturn s2 x Hpx) as Hr2. rewrite <- Ef2 in Hr2.
  pose proof (adjusted_le turn Hturn (prev_phi s2) (phi_of x)) as Ha2.
  assert (Hp2q : prev_phi s2 <= q + turn) by (rewrite Hp2, Hp1; exact Hfin).
  unfold sectors_ok in Hok. unfold ray_of in Hr2.
  destruct (prev final) as [[[pi prho] pray]|]; [|contradiction].
  destruct Hok as (K1 & K2 & K3 & K4).
  exists ray1. split; [exact K3|].
  intros g Hg. destruct (consecutive_within _ _ K3) as [_ Hwi].
  destruct (Hwi (phi1 g) (phi2 g)) as (L1 & L2 & L3).
  { change (phi1 g, phi2 g) with (sector g). apply in_map. exact Hg. }
  repeat split; [exact L1|exact L2|].
  assert (prev_phi s2 + (adjusted turn (prev_phi s2) (phi_of x) - prev_phi s2) * (1 # 2) <= ray1 + turn) by lra.
  lra.
Qed.

(** *** The members of the groups are nodes of the sweep *)
Definition member_ok (m : Q * nat * Q) : Prop :=
  (exists phi, In (phi, fst (fst m), snd (fst m)) sweep) /\ 0 <= snd m.

Definition members_ok (s : cone_state) : Prop :=
  Forall member_ok (members s) /\
  Forall (fun g => nodes g <> [] /\ Forall member_ok (nodes g)) (groups s) /\
  match prev s with None => True | Some (i, rho, _) => exists phi, In (phi, rho, i) sweep end.

Lemma step_members s p : members_ok s -> In p sweep -> members_ok (cone_step turn target eps w s p).
Proof.
  intros (H1 & H2 & H3) Hp. destruct p as [[phi rho] i]. unfold cone_step, members_ok.
  destruct (prev s) as [[[pi prho] pray]|]; cbn [members groups prev].
  - assert (Hm : member_ok (prho, pi, w pi i)) by (split; cbn; auto).
    destruct (Qltb _ eps); cbn [members groups prev].
    + split; [|split].
      * destruct (Qltb _ 1); [constructor; [exact Hm|constructor]|constructor].
      * apply Forall_app. split; [exact H2|]. constructor; [|constructor]. cbn [nodes]. split.
        -- intros E. apply app_eq_nil in E. destruct E; discriminate.
        -- apply Forall_app. split; [exact H1|]. constructor; [exact Hm|constructor].
      * exists phi. exact Hp.
    + split; [|split; [exact H2|exists phi; exact Hp]].
      apply Forall_app. split; [exact H1|]. constructor; [exact Hm|constructor].
  - split; [exact H1|]. split; [exact H2|]. exists phi. exact Hp.
Qed.

Lemma final_members : members_ok final.
Proof.
  unfold final, cone_groups.
  assert (Hin : forall p, In p (circle_view sweep trial) -> In p sweep).
  { intros p Hp. unfold circle_view in Hp. apply in_app_iff in Hp.
    rewrite <- (firstn_skipn trial sweep). destruct Hp as [Hp|Hp].
    - apply in_app_iff. right. exact Hp.
    - rewrite (firstn_skipn trial sweep). rewrite <- (firstn_skipn (trial + 1) sweep).
      apply in_app_iff. left. exact Hp. }
  assert (Hs : members_ok (CS [] 0 0 [] None (first_prev_phi turn sweep trial))).
  { repeat split; constructor. }
  revert Hin Hs. generalize (CS [] 0 0 [] None (first_prev_phi turn sweep trial)).
  induction (circle_view sweep trial) as [|p l IH]; intros s Hin Hs; [exact Hs|].
  cbn [fold_left]. apply IH; [intros; apply Hin; right; assumption|].
  apply step_members; [exact Hs|]. apply Hin. left. reflexivity.
Qed.
End CIRCLE.

(** *** The distance of a seed *)
Definition rho_of (m : Q * nat * Q) : Q := fst (fst m).

Lemma insert_node_perm x l : Permutation (insert_node x l) (x :: l).
Proof.
  induction l as [|y l IH]; [reflexivity|]. cbn [insert_node].
  destruct (_ || _); [|reflexivity]. rewrite IH. apply perm_swap.
Qed.

Lemma sort_nodes_perm l : Permutation (sort_nodes l) l.
Proof. induction l as [|x l IH]; [reflexivity|]. cbn [sort_nodes fold_right]. fold (sort_nodes l). rewrite insert_node_perm, IH. reflexivity. Qed.

Lemma insert_node_asc x l : ascending (map rho_of l) -> ascending (map rho_of (insert_node x l)).
Proof.
  induction l as [|y l IH]; intros H; [exact I|].
  cbn [insert_node].
  destruct (Qltb (fst (fst y)) (fst (fst x)) || (Qeq_bool (fst (fst y)) (fst (fst x)) && Nat.ltb (snd (fst y)) (snd (fst x)))) eqn:E.
  - assert (Hyx : rho_of y <= rho_of x).
    { apply orb_true_iff in E. unfold rho_of. destruct E as [E|E].
      - apply Qltb_true in E. lra.
      - apply andb_true_iff in E. destruct E as [E _]. apply Qeq_bool_iff in E. lra. }
    specialize (IH (ascending_tl _ _ H)).
    cbn [map]. destruct l as [|z l].
    + cbn. auto.
    + cbn [insert_node] in *. cbn [map ascending] in H. destruct H as [H1 H2].
      destruct (Qltb (fst (fst z)) (fst (fst x)) || _); cbn [map ascending] in *; auto.
  - apply orb_false_iff in E. destruct E as [E _]. apply Qltb_false in E.
    cbn [map ascending] in *. split; [exact E|exact H].
Qed.

Lemma sort_nodes_asc l : ascending (map rho_of (sort_nodes l)).
Proof. induction l as [|x l IH]; [exact I|]. apply insert_node_asc, IH. Qed.

Lemma grow_arc_bound t M : forall l r grow,
  ascending (r :: map rho_of l) -> grow <= t -> r <= M ->
  (forall m, In m l -> rho_of m <= M /\ 0 <= snd m) ->
  r <= grow_arc t r grow l /\ grow_arc t r grow l <= M.
Proof.
  induction l as [|[[cr ci] cwt] l IH]; intros r grow Hasc Hg Hr Hm; cbn [grow_arc]; [lra|].
  destruct (Hm (cr, ci, cwt) (or_introl eq_refl)) as [HM Hc]. unfold rho_of in HM. cbn [fst snd] in HM, Hc.
  cbn [map] in Hasc. destruct Hasc as [H1 H2]. unfold rho_of in H1 at 1. cbn [fst] in H1.
  destruct (Qltb t (grow + cwt)) eqn:E.
  - apply Qltb_true in E. assert (Hp : 0 < cwt) by lra.
    set (f := (t - grow) / cwt).
    assert (Hf0 : 0 <= f) by (apply Qle_shift_div_l; [exact Hp|lra]).
    assert (Hf1 : f <= 1) by (apply Qle_shift_div_r; [exact Hp|lra]).
    assert (0 <= f * (cr - r)) by (apply Qmult_le_0_compat; lra).
    assert (0 <= (1 - f) * (cr - r)) by (apply Qmult_le_0_compat; lra).
    lra.
  - apply Qltb_false in E.
    destruct (IH cr (grow + cwt)) as [K1 K2]; auto.
    + intros m Hin. apply Hm. right. exact Hin.
    + lra.
Qed.

Lemma farthest (l : list (Q * nat * Q)) : l <> [] ->
  exists m, In m l /\ forall m', In m' l -> rho_of m' <= rho_of m.
Proof.
  induction l as [|x l IH]; intros H; [congruence|].
  destruct l as [|y l].
  - exists x. split; [left; reflexivity|]. intros m' [<-|[]]. lra.
  - destruct IH as (m & Hm & Hmax); [discriminate|].
    destruct (Qlt_le_dec (rho_of m) (rho_of x)) as [Hlt|Hle].
    + exists x. split; [left; reflexivity|]. intros m' [<-|Hm']; [lra|]. specialize (Hmax m' Hm'). lra.
    + exists m. split; [right; exact Hm|]. intros m' [<-|Hm']; [exact Hle|auto].
Qed.

Lemma seed_distance target l : 0 < target -> l <> [] ->
  (forall m, In m l -> 0 <= rho_of m /\ 0 <= snd m) ->
  exists m, In m l /\ 0 <= grow_arc ((3 # 4) * target) 0 0 (sort_nodes l)
    /\ grow_arc ((3 # 4) * target) 0 0 (sort_nodes l) <= rho_of m.
Proof.
  intros Ht Hn Hm. destruct (farthest l Hn) as (m & Hin & Hmax). exists m. split; [exact Hin|].
  apply grow_arc_bound.
  - pose proof (sort_nodes_asc l) as Ha. pose proof (sort_nodes_perm l) as HP.
    destruct (sort_nodes l) as [|y t]; [exact I|]. cbn [map] in *. split; [|exact Ha].
    apply Hm. apply (Permutation_in _ HP). left. reflexivity.
  - lra.
  - apply Hm. exact Hin.
  - intros m' Hm'. assert (H : In m' l) by (apply (Permutation_in _ (sort_nodes_perm l)); exact Hm').
    split; [apply Hmax; exact H|apply Hm; exact H].
Qed.

(** *** The seed points *)
Lemma share_target total K : (1 <= K)%nat ->
  inject_Z (Z.of_nat K) * (total / inject_Z (Z.of_nat K)) == total.
Proof.
  intros HK. field. intros H. unfold Qeq in H. cbn in H. lia.
Qed.

Lemma KQ_pos K : (1 <= K)%nat -> 0 < inject_Z (Z.of_nat K).
Proof. intros H. change 0 with (inject_Z 0). rewrite <- Zlt_Qlt. lia. Qed.

Lemma equal_cones turn eps total w sweep K trial :
  0 < turn -> 0 < eps -> (forall i j, 0 <= w i j) -> (1 <= K)%nat -> (trial < length sweep)%nat ->
  within_a_turn turn (map phi_of sweep) -> (forall p, In p sweep -> 0 <= snd (fst p)) ->
  total == around w (map node_of sweep) ->
  let share := total / inject_Z (Z.of_nat K) in
  (forall i j, w i j <= share) ->
  (inject_Z (Z.of_nat K) + 1) * eps < share ->
  exists gs first,
    gs = groups (cone_groups turn share eps w sweep trial) /\
    sweep_seed_points turn eps total w sweep K trial
      = Cone_seeds (map (fun g => Some (cone_seed turn share g)) gs)
    /\ length gs = K
    /\ (forall g, In g gs -> share - eps < weight g /\ weight g <= share)
    /\ consecutive first (map sector gs)
    /\ (forall g, In g gs -> first <= phi1 g /\ phi1 g <= phi2 g /\ phi2 g <= first + turn)
    /\ (forall g, In g gs ->
          phi1 g <= snd (cone_seed turn share g) /\ snd (cone_seed turn share g) <= phi2 g /\
          0 <= fst (cone_seed turn share g) /\
          exists rho i wt phi, In (rho, i, wt) (nodes g) /\ In (phi, rho, i) sweep
            /\ fst (cone_seed turn share g) <= rho).
Proof.
  intros Hturn Heps Hw HK Htr Hang Hrho Htot share Hlight Hsmall.
  pose proof (KQ_pos K HK) as HKp. pose proof (share_target total K HK) as Hsh. fold share in Hsh.
  assert (Htarget : 0 < share).
  { assert (0 <= inject_Z (Z.of_nat K) * eps) by (apply Qmult_le_0_compat; apply Qlt_le_weak; assumption).
    revert Hsmall H. generalize (inject_Z (Z.of_nat K)). intros. lra. }
  set (final := cone_groups turn share eps w sweep trial).
  destruct (exactly_K turn share eps w sweep K trial Htarget Heps Hw Hlight) as [HlenK Heven].
  { rewrite (view_along w sweep trial Htr). rewrite <- Htot. symmetry. exact Hsh. }
  { exact Hsmall. }
  destruct (circle_sectors turn share eps w sweep trial Hturn Htarget Heps Hw Hlight Htr Hang)
    as (first & Hcons & Hsec).
  fold final in HlenK, Heven, Hcons, Hsec.
  exists (groups final), first.
  split; [reflexivity|].
  split; [|split; [exact HlenK|]].
  - unfold sweep_seed_points. destruct K as [|k]; [lia|]. fold share. fold final.
    rewrite HlenK, Nat.ltb_irrefl, Nat.sub_diag. cbn [repeat]. rewrite app_nil_r. reflexivity.
  - split.
    { intros g Hg. pose proof (final_full turn share eps w sweep trial) as Hf. fold final in Hf.
      unfold full_groups, even_groups in *. rewrite Forall_forall in Hf, Heven.
      split; [apply Hf; exact Hg|apply Heven; exact Hg]. }
    split; [exact Hcons|]. split; [exact Hsec|].
    intros g Hg. destruct (Hsec g Hg) as (S1 & S2 & S3).
    destruct (bisect_between turn (phi1 g) (phi2 g) (1 # 2) Hturn S2) as [B1 B2]; [lra|lra|].
    unfold cone_seed. cbn [fst snd]. split; [exact B1|]. split; [exact B2|].
    pose proof (final_members turn share eps w sweep trial Hw) as (_ & Hm & _). fold final in Hm.
    rewrite Forall_forall in Hm. destruct (Hm g Hg) as [Hne Hmo]. rewrite Forall_forall in Hmo.
    destruct (seed_distance share (nodes g) Htarget Hne) as (m & Hin & D1 & D2).
    { intros m Hin. destruct (Hmo m Hin) as [[phi Hp] Hwt]. split; [|exact Hwt].
      apply (Hrho _ Hp). }
    split; [exact D1|].
    destruct (Hmo m Hin) as [[phi Hp] Hwt].
    destruct m as [[rho i] wt]. exists rho, i, wt, phi. cbn [fst snd] in Hp. auto.
Qed.

(** whatever the weights, there are never too many groups *)
Lemma no_index_error turn eps total w sweep K trial :
  0 < eps -> (forall i j, 0 <= w i j) -> (1 <= K)%nat -> (trial < length sweep)%nat ->
  total == around w (map node_of sweep) ->
  (inject_Z (Z.of_nat K) + 1) * eps < total / inject_Z (Z.of_nat K) ->
  exists s, sweep_seed_points turn eps total w sweep K trial = Cone_seeds s /\ length s = K.
Proof.
  intros Heps Hw HK Htr Htot Hsmall.
  pose proof (KQ_pos K HK) as HKp. pose proof (share_target total K HK) as Hsh.
  set (share := total / inject_Z (Z.of_nat K)) in *.
  assert (Htarget : 0 < share).
  { assert (0 <= inject_Z (Z.of_nat K) * eps) by (apply Qmult_le_0_compat; apply Qlt_le_weak; assumption).
    revert Hsmall H. generalize (inject_Z (Z.of_nat K)). intros. lra. }
  assert (Hle : (length (groups (cone_groups turn share eps w sweep trial)) <= K)%nat).
  { apply at_most_K; auto. rewrite (view_along w sweep trial Htr). rewrite <- Htot. lra. }
  unfold sweep_seed_points. destruct K as [|k]; [lia|]. fold share.
  set (gs := groups _) in *.
  destruct (Nat.ltb_spec (S k) (length gs)); [lia|].
  eexists. split; [reflexivity|]. rewrite app_length, map_length, repeat_length. lia.
Qed.

Lemma along_round w : forall x l, along w ((x :: l) ++ [x]) == along w (x :: l) + w (last (x :: l) 0%nat) x.
Proof.
  intros x l. destruct (exists_last (l := x :: l) ltac:(discriminate)) as (a & y & E). rewrite E.
  rewrite last_last. rewrite <- app_assoc. cbn [app]. rewrite (along_app w a y [x]). cbn [along]. lra.
Qed.

(** The last attempt leaves the cone of the last customer out *)
Lemma last_attempt turn eps total w sweep K :
  0 < eps -> (forall i j, 0 <= w i j) -> (1 <= K)%nat -> sweep <> [] ->
  total == around w (map node_of sweep) ->
  eps < total / inject_Z (Z.of_nat K) ->
  inject_Z (Z.of_nat K) * eps < w (last (map node_of sweep) 0%nat) (hd 0%nat (map node_of sweep)) ->
  exists s, sweep_seed_points turn eps total w sweep K (length sweep) = Cone_seeds s
    /\ length s = K /\ In None s.
Proof.
  intros Heps Hw HK Hne Htot Hsmall Hlast.
  pose proof (KQ_pos K HK) as HKp. pose proof (share_target total K HK) as Hsh.
  set (share := total / inject_Z (Z.of_nat K)) in *.
  assert (Hv : circle_view sweep (length sweep) = sweep).
  { unfold circle_view. rewrite skipn_all. cbn [app]. apply firstn_all2. lia. }
  assert (Hle : (length (groups (cone_groups turn share eps w sweep (length sweep))) <= K - 1)%nat).
  { apply groups_bound; auto; [lra|]. rewrite Hv. replace (S (K - 1)) with K by lia.
    unfold around in Htot. destruct (map node_of sweep) as [|x l] eqn:El.
    - destruct sweep; [congruence|discriminate].
    - rewrite along_round in Htot. cbn [hd] in Hlast. lra. }
  unfold sweep_seed_points. destruct K as [|k]; [lia|]. fold share.
  set (gs := groups _) in *.
  destruct (Nat.ltb_spec (S k) (length gs)); [lia|].
  eexists. split; [reflexivity|]. split; [rewrite app_length, map_length, repeat_length; lia|].
  apply in_app_iff. right. replace (S k - length gs)%nat with (S (k - length gs)) by lia. left. reflexivity.
Qed.

(** With demands as weights the way around weighs the sum of the demands *)
Lemma around_demands (d : nat -> Q) l : around (fun i _ => d i) l == Qsum (map d l).
Proof.
  destruct l as [|x l]; [reflexivity|]. unfold around.
  generalize (x :: l) as m. clear l. intros m. revert x.
  induction m as [|y m IH]; intros x; [reflexivity|].
  change (Qsum (map d (y :: m))) with (d y + Qsum (map d m)). rewrite <- (IH x).
  destruct m; cbn [app along]; lra.
Qed.
