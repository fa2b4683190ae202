(** Proofs about the cones around the depot. *)
From Coq Require Import ZArith QArith Qminmax Qround List Bool Arith Lia Lqa.
From Verif Require Import M_cones Spec_cones.
Import ListNotations.
Open Scope Q_scope.

Lemma Qltb_true a b : Qltb a b = true <-> a < b.
Proof.
  unfold Qltb. rewrite negb_true_iff. split; intros H.
  - apply Qnot_le_lt. intros H'. apply Qle_bool_iff in H'. congruence.
  - destruct (Qle_bool b a) eqn:E; [|reflexivity]. apply Qle_bool_iff in E. lra.
Qed.

Lemma Qltb_false a b : Qltb a b = false <-> b <= a.
Proof.
  unfold Qltb. rewrite negb_false_iff. apply Qle_bool_iff.
Qed.

Lemma bisect_le turn a b r : 0 < turn -> a <= b -> bisect_angle turn a b r == a + (b - a) * r.
Proof.
  intros Ht Hab. unfold bisect_angle.
  replace (Z.max 0 (Qceiling ((a - b) / turn))) with 0%Z.
  - change (inject_Z 0) with 0. ring.
  - symmetry. apply Z.max_l. change 0%Z with (Qceiling 0).
    apply Qceiling_resp_le. apply Qle_shift_div_r; [exact Ht|]. lra.
Qed.

Lemma bisect_between turn a b r : 0 < turn -> a <= b -> 0 <= r -> r <= 1 ->
  a <= bisect_angle turn a b r /\ bisect_angle turn a b r <= b.
Proof.
  intros Ht Hab H0 H1. rewrite (bisect_le turn a b r Ht Hab).
  assert (0 <= (b - a) * r) by (apply Qmult_le_0_compat; lra).
  assert (0 <= (b - a) * (1 - r)) by (apply Qmult_le_0_compat; lra).
  lra.
Qed.

(** *** The fraction of a cone that fits *)
Definition fraction_of (target cum wt : Q) : Q :=
  if Qeq_bool wt 0 then 1 else Qmin 1 ((target - cum) / wt).

Lemma fraction_le1 target c wt : fraction_of target c wt <= 1.
Proof.
  unfold fraction_of. destruct (Qeq_bool wt 0); [lra|]. apply Q.le_min_l.
Qed.

Lemma div_mul a b : ~ b == 0 -> a / b * b == a.
Proof. intros H. field. exact H. Qed.

(** for weights that are not negative *)
Lemma fraction_weight target c wt : 0 <= wt ->
  (wt == 0 /\ fraction_of target c wt == 1) \/
  (0 < wt /\ fraction_of target c wt == 1 /\ wt <= target - c) \/
  (0 < wt /\ fraction_of target c wt < 1 /\ target - c < wt /\ fraction_of target c wt * wt == target - c).
Proof.
  intros Hw. unfold fraction_of. destruct (Qeq_bool wt 0) eqn:E.
  - apply Qeq_bool_iff in E. left. lra.
  - assert (Hn : ~ wt == 0) by (intros H; apply Qeq_bool_iff in H; congruence).
    assert (Hp : 0 < wt) by (destruct (Qlt_le_dec 0 wt); [assumption|exfalso; apply Hn; lra]).
    right. pose proof (div_mul (target - c) wt Hn) as Hd.
    set (q := (target - c) / wt) in *.
    destruct (Qlt_le_dec q 1) as [Hq|Hq].
    + right. assert (Hm : Qmin 1 q == q) by (apply Q.min_r; lra).
      assert (0 < (1 - q) * wt) by (apply Qmult_lt_0_compat; lra).
      split; [exact Hp|]. rewrite Hm. split; [lra|]. split; [lra|exact Hd].
    + left. assert (Hm : Qmin 1 q == 1) by (apply Q.min_l; lra).
      assert (0 <= (q - 1) * wt) by (apply Qmult_le_0_compat; lra).
      split; [exact Hp|]. rewrite Hm. split; [reflexivity|lra].
Qed.

Lemma fraction_nonneg target c wt : 0 <= wt -> c <= target -> 0 <= fraction_of target c wt.
Proof.
  intros Hw Hc. unfold fraction_of. destruct (Qeq_bool wt 0) eqn:E; [lra|].
  assert (Hn : ~ wt == 0) by (intros H; apply Qeq_bool_iff in H; congruence).
  assert (Hp : 0 < wt) by (destruct (Qlt_le_dec 0 wt); [assumption|exfalso; apply Hn; lra]).
  apply Q.min_glb; [lra|]. apply Qle_shift_div_l; [exact Hp|]. lra.
Qed.

Lemma Qsum_app a b : Qsum (a ++ b) == Qsum a + Qsum b.
Proof.
  induction a as [|x a IH].
  - change (Qsum b == 0 + Qsum b). ring.
  - change (x + Qsum (a ++ b) == x + Qsum a + Qsum b). lra.
Qed.

Lemma along_app w : forall a x b, along w (a ++ x :: b) == along w (a ++ [x]) + along w (x :: b).
Proof.
  induction a as [|y a IH]; intros x b; [cbn; lra|].
  destruct a as [|z a].
  - cbn [app along]. lra.
  - specialize (IH x b). cbn [app] in *. cbn [along] in *. lra.
Qed.

Section LOOP.
Variables (turn target eps : Q) (w : nat -> nat -> Q).
Hypotheses (Hturn : 0 < turn) (Htarget : 0 < target) (Heps : 0 < eps) (Hw : forall i j, 0 <= w i j).

Definition prev_node (s : cone_state) : list nat := match prev s with None => [] | Some (i, _, _) => [i] end.
Definition node_of (p : place) : nat := snd p.

(** what has been weighed so far: complete groups and the current one *)
Definition weighed (s : cone_state) : Q := Qsum (map weight (groups s)) + cum s.

Lemma step_prev s p : prev_node (cone_step turn target eps w s p) = [node_of p].
Proof.
  destruct p as [[phi rho] i]. unfold cone_step, prev_node.
  destruct (prev s) as [[[pi prho] pray]|]; [|reflexivity].
  destruct (Qltb _ eps); reflexivity.
Qed.

Lemma step_weighed s p : 0 <= cum s ->
  weighed (cone_step turn target eps w s p) == weighed s + along w (prev_node s ++ [node_of p])
  /\ 0 <= cum (cone_step turn target eps w s p).
Proof.
  intros Hc. destruct p as [[phi rho] i]. unfold cone_step, weighed, prev_node, node_of. cbn [snd].
  destruct (prev s) as [[[pi prho] pray]|]; [|cbn [groups cum app along]; split; lra].
  cbn [app along]. set (wt := w pi i).
  fold (fraction_of target (cum s) wt).
  pose proof (Hw pi i) as Hwt. fold wt in Hwt.
  pose proof (fraction_le1 target (cum s) wt) as Hf1.
  pose proof (fraction_weight target (cum s) wt Hwt) as Hf.
  set (f := fraction_of target (cum s) wt) in *.
  assert (Hr : 0 <= (1 - f) * wt) by (apply Qmult_le_0_compat; lra).
  assert (Hc1 : 0 <= cum s + f * wt).
  { destruct Hf as [[H1 H2]|[[H1 [H2 H3]]|[H1 [H2 [H3 H4]]]]].
    - rewrite H1. lra.
    - rewrite H2. lra.
    - rewrite H4. lra. }
  destruct (Qltb (target - (cum s + f * wt)) eps) eqn:Eb; cbn [groups cum map].
  - rewrite map_app, Qsum_app. cbn [map weight Qsum fold_right].
    destruct (Qltb f 1) eqn:E; [split; [lra|exact Hr]|].
    apply Qltb_false in E. split; [|lra].
    assert (Hf11 : f == 1) by lra. rewrite Hf11. lra.
  - split; [|exact Hc1].
    destruct Hf as [[H1 H2]|[[H1 [H2 H3]]|[H1 [H2 [H3 H4]]]]].
    + rewrite H2. lra.
    + rewrite H2. lra.
    + exfalso. apply Qltb_false in Eb. rewrite H4 in Eb. lra.
Qed.

Notation step := (cone_step turn target eps w).

Lemma fold_weighed : forall l s, 0 <= cum s ->
  weighed (fold_left step l s) == weighed s + along w (prev_node s ++ map node_of l)
  /\ 0 <= cum (fold_left step l s).
Proof.
  induction l as [|p l IH]; intros s Hc.
  - cbn [fold_left map]. rewrite app_nil_r. split; [|exact Hc].
    unfold prev_node. destruct (prev s) as [[[pi prho] pray]|]; cbn [along]; lra.
  - cbn [fold_left map]. destruct (step_weighed s p Hc) as [H1 H2].
    destruct (IH (step s p) H2) as [H3 H4]. split; [|exact H4].
    rewrite H3, H1, step_prev. rewrite (along_app w (prev_node s) (node_of p) (map node_of l)).
    cbn [app]. lra.
Qed.

(** every complete group is full *)
Definition full_groups (gs : list cone) : Prop := Forall (fun g => target - eps < weight g) gs.

Lemma step_full s p : full_groups (groups s) -> full_groups (groups (step s p)).
Proof.
  intros H. destruct p as [[phi rho] i]. unfold cone_step.
  destruct (prev s) as [[[pi prho] pray]|]; [|exact H].
  fold (fraction_of target (cum s) (w pi i)).
  destruct (Qltb _ eps) eqn:E; cbn [groups]; [|exact H].
  apply Forall_app. split; [exact H|]. constructor; [|constructor]. cbn [weight].
  apply Qltb_true in E. lra.
Qed.

Lemma fold_full : forall l s, full_groups (groups s) -> full_groups (groups (fold_left step l s)).
Proof. induction l as [|p l IH]; intros s H; [exact H|]. cbn. apply IH, step_full, H. Qed.

Lemma full_sum gs : full_groups gs ->
  inject_Z (Z.of_nat (length gs)) * (target - eps) <= Qsum (map weight gs).
Proof.
  induction 1 as [|g gs Hg HF IH].
  - change (0 * (target - eps) <= 0). lra.
  - cbn [length map]. change (Qsum (weight g :: map weight gs)) with (weight g + Qsum (map weight gs)).
    rewrite Nat2Z.inj_succ. unfold Z.succ. rewrite inject_Z_plus. change (inject_Z 1) with 1.
    lra.
Qed.

(** *** When no cone is heavier than the target *)
Section LIGHT.
Hypothesis Hlight : forall i j, w i j <= target.

Definition even_groups (gs : list cone) : Prop := Forall (fun g => weight g <= target) gs.

Lemma step_light s p : cum s < target -> even_groups (groups s) ->
  cum (step s p) < target /\ even_groups (groups (step s p)).
Proof.
  intros Hc He. destruct p as [[phi rho] i]. unfold cone_step.
  destruct (prev s) as [[[pi prho] pray]|]; [|cbn; auto].
  set (wt := w pi i). fold (fraction_of target (cum s) wt).
  pose proof (Hw pi i) as Hwt. fold wt in Hwt. pose proof (Hlight pi i) as Hl. fold wt in Hl.
  pose proof (fraction_weight target (cum s) wt Hwt) as Hf.
  pose proof (fraction_nonneg target (cum s) wt Hwt ltac:(lra)) as Hf0.
  set (f := fraction_of target (cum s) wt) in *.
  assert (Hc1 : cum s + f * wt <= target).
  { destruct Hf as [[H1 H2]|[[H1 [H2 H3]]|[H1 [H2 [H3 H4]]]]].
    - rewrite H1. lra.
    - rewrite H2. lra.
    - rewrite H4. lra. }
  destruct (Qltb (target - (cum s + f * wt)) eps) eqn:Eb; cbn [groups cum].
  - split.
    + destruct (Qltb f 1) eqn:E; [|exact Htarget].
      destruct Hf as [[H1 H2]|[[H1 [H2 H3]]|[H1 [H2 [H3 H4]]]]].
      * rewrite H1. lra.
      * rewrite H2. lra.
      * lra.
    + apply Forall_app. split; [exact He|]. constructor; [exact Hc1|constructor].
  - apply Qltb_false in Eb. split; [lra|exact He].
Qed.

Lemma fold_light : forall l s, cum s < target -> even_groups (groups s) ->
  cum (fold_left step l s) < target /\ even_groups (groups (fold_left step l s)).
Proof.
  induction l as [|p l IH]; intros s H1 H2; [auto|].
  cbn [fold_left]. destruct (step_light s p H1 H2). apply IH; assumption.
Qed.

Lemma even_sum gs : even_groups gs ->
  Qsum (map weight gs) <= inject_Z (Z.of_nat (length gs)) * target.
Proof.
  induction 1 as [|g gs Hg HF IH].
  - change (0 <= 0 * target). lra.
  - cbn [length map]. change (Qsum (weight g :: map weight gs)) with (weight g + Qsum (map weight gs)).
    rewrite Nat2Z.inj_succ. unfold Z.succ. rewrite inject_Z_plus. change (inject_Z 1) with 1.
    lra.
Qed.

(** *** Sectors *)
Definition phi_of (p : place) : Q := fst (fst p).
Definition adjusted (prevphi phi : Q) : Q := if Qltb phi prevphi then phi + turn else phi.

Fixpoint forward (prevphi : Q) (l : list place) : Prop :=
  match l with
  | [] => True
  | p :: t => prevphi <= phi_of p + turn /\ forward (adjusted prevphi (phi_of p)) t
  end.

Definition final_phi (prevphi : Q) (l : list place) : Q :=
  fold_left (fun q p => adjusted q (phi_of p)) l prevphi.

Lemma adjusted_ge q phi : q <= phi + turn -> q <= adjusted q phi.
Proof.
  intros H. unfold adjusted. destruct (Qltb phi q) eqn:E; [exact H|]. apply Qltb_false in E. exact E.
Qed.

Lemma adjusted_le q phi : adjusted q phi <= phi + turn.
Proof. unfold adjusted. destruct (Qltb phi q); lra. Qed.

Fixpoint final_end (a : Q) (l : list (Q * Q)) : Q :=
  match l with [] => a | (_, c) :: t => final_end c t end.

Lemma consecutive_snoc : forall l a b c, consecutive a l -> final_end a l == b -> b <= c ->
  consecutive a (l ++ [(b, c)]) /\ final_end a (l ++ [(b, c)]) = c.
Proof.
  induction l as [|[x y] l IH]; intros a b c H1 H2 H3; cbn in *.
  - repeat split; auto.
  - destruct H1 as (E1 & E2 & E3). destruct (IH y b c E3 H2 H3). auto.
Qed.

Definition sector (g : cone) : Q * Q := (phi1 g, phi2 g).

Definition sectors_ok (first : Q) (s : cone_state) : Prop :=
  match prev s with
  | None => False
  | Some (_, _, pray) =>
      start_ray s <= pray /\ pray <= prev_phi s /\
      consecutive first (map sector (groups s)) /\ final_end first (map sector (groups s)) == start_ray s
  end.

Definition ray_of (s : cone_state) : Q := match prev s with Some (_, _, r) => r | None => 0 end.

Lemma step_phi s p : prev_phi (step s p) = adjusted (prev_phi s) (phi_of p).
Proof.
  destruct p as [[phi rho] i]. unfold cone_step, adjusted, phi_of. cbn [fst].
  destruct (prev s) as [[[pi prho] pray]|]; [|reflexivity].
  destruct (Qltb (target - _) eps); reflexivity.
Qed.

Lemma step_ray s p : prev_phi s <= phi_of p + turn ->
  ray_of (step s p) == prev_phi s + (adjusted (prev_phi s) (phi_of p) - prev_phi s) * (1 # 2).
Proof.
  intros H. apply adjusted_ge in H. destruct p as [[phi rho] i]. unfold ray_of, cone_step, phi_of in *. cbn [fst] in *.
  fold (adjusted (prev_phi s) phi).
  pose proof (bisect_le turn _ _ (1 # 2) Hturn H) as E.
  destruct (prev s) as [[[pi prho] pray]|]; [|cbn [prev]; exact E].
  destruct (Qltb (target - _) eps); cbn [prev]; exact E.
Qed.

Lemma step_sectors first s p : cum s < target -> prev_phi s <= phi_of p + turn ->
  sectors_ok first s -> sectors_ok first (step s p) /\ ray_of s <= ray_of (step s p).
Proof.
  intros Hc Hp Hs.
  pose proof (step_ray s p Hp) as Hr. pose proof (adjusted_ge _ _ Hp) as Ha.
  unfold sectors_ok in Hs. destruct (prev s) as [[[pi prho] pray]|] eqn:Ep; [|contradiction].
  destruct Hs as (H1 & H2 & H3 & H4).
  assert (Hrs : ray_of s = pray) by (unfold ray_of; rewrite Ep; reflexivity).
  rewrite Hrs.
  split; [|lra].
  unfold sectors_ok. pose proof (step_phi s p) as Hphi.
  revert Hr Hphi.
  destruct p as [[phi rho] i]. unfold phi_of in *. cbn [fst] in *.
  unfold cone_step, ray_of. rewrite Ep. fold (adjusted (prev_phi s) phi).
  set (q := adjusted (prev_phi s) phi) in *.
  set (ray := bisect_angle turn (prev_phi s) q (1 # 2)).
  set (wt := w pi i). fold (fraction_of target (cum s) wt).
  pose proof (fraction_nonneg target (cum s) wt (Hw pi i) ltac:(lra)) as Hf0.
  pose proof (fraction_le1 target (cum s) wt) as Hf1.
  set (f := fraction_of target (cum s) wt) in *.
  destruct (Qltb (target - (cum s + f * wt)) eps) eqn:Eb; cbn [groups prev start_ray prev_phi]; intros Hr _.
  - assert (Hpr : pray <= ray) by lra.
    destruct (bisect_between turn pray ray f Hturn Hpr Hf0 Hf1) as [B1 B2].
    split; [exact B2|]. split; [lra|].
    rewrite map_app. cbn [map sector phi1 phi2].
    destruct (consecutive_snoc (map sector (groups s)) first (start_ray s) (bisect_angle turn pray ray f) H3 H4) as [C1 C2]; [lra|].
    unfold sector at 2 4. cbn [phi1 phi2]. split; [exact C1|]. rewrite C2. reflexivity.
  - split; [lra|]. split; [lra|]. split; [exact H3|exact H4].
Qed.

Lemma fold_sectors first : forall l s, cum s < target -> even_groups (groups s) ->
  forward (prev_phi s) l -> sectors_ok first s ->
  sectors_ok first (fold_left step l s) /\ ray_of s <= ray_of (fold_left step l s)
  /\ prev_phi (fold_left step l s) = final_phi (prev_phi s) l.
Proof.
  induction l as [|p l IH]; intros s Hc He Hf Hs.
  - cbn. split; [exact Hs|]. split; [lra|reflexivity].
  - cbn [fold_left forward final_phi] in *. destruct Hf as [Hf1 Hf2].
    destruct (step_sectors first s p Hc Hf1 Hs) as [K1 K2].
    destruct (step_light s p Hc He) as [K3 K4].
    rewrite <- step_phi in Hf2.
    destruct (IH (step s p) K3 K4 Hf2 K1) as (K5 & K6 & K7).
    split; [exact K5|]. split; [lra|]. rewrite K7, step_phi. reflexivity.
Qed.
End LIGHT.
End LOOP.
