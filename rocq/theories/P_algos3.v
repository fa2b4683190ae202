(** * Wren and Holliday's heuristic through the uniform interface: proofs *)
From Verif Require Import Spec_savings Spec_inter Spec_polar PyBase M_util M_sweep M_polar M_whstart M_wh Spec_wh P_wh8 P_wh9 P_whstart P_whstart2 Spec_all M_cli M_algos2 Spec.
From Coq Require Import ZifyBool ZifyNat Lia Arith List Permutation.
Import ListNotations.
Local Open Scope Z_scope.

Section Wh.
Variables (argsort : list fraction -> list nat) (points : list (list Z)) (overlap : list nat -> list nat -> bool)
  (gap : list nat -> nat) (set_order : list nat -> list nat) (eps : Z) (N : nat) (D : matrix) (d : demands) (C L : limit).
Hypothesis HP : Spec_all.problem N D d C L eps.
Hypothesis HT : triangle D.
Hypothesis Hpts : length points = N.
Hypothesis Hplane : planar points.
Hypothesis Hsort : sorts argsort.
Hypothesis Hgap : forall l, l <> [] -> (gap l < length l)%nat.
Hypothesis Hset : forall l, Permutation (set_order l) l.

Lemma wh_setup single : single = false \/ (3 <= N)%nat -> exists rho order sweeps,
  read_coordinates argsort points = Some (rho, order) /\ wh_sweeps argsort points (Some (map d (range 0 N))) (wh_cli_seed single) BothWays = Some sweeps /\
  wh_instance eps N D d C L order gap set_order /\ good_sweeps N sweeps /\ sweeps <> [].
Proof.
  intros Hs. assert (HN : (2 <= length points)%nat) by (rewrite Hpts; apply (pb_size _ _ _ _ _ _ HP)).
  assert (Hl : length (map d (range 0 N)) = length points) by (rewrite map_length; unfold range; rewrite seq_length; lia).
  destruct (rays argsort Hsort points (Some (map d (range 0 N))) HN Hplane Hl BothWays) as (rho & order & E & Hperm & (s1 & E1 & _) & _).
  exists rho, order. assert (G : exists s, wh_sweeps argsort points (Some (map d (range 0 N))) (wh_cli_seed single) BothWays = Some s).
  { revert E1. unfold wh_sweeps. destruct (get_sweep_from_cartesian_coordinates argsort points) as [[[? ?] ?]|]; [|discriminate]. intros _. eexists. reflexivity. }
  destruct G as (s & Es). exists s. split; [exact E|]. split; [exact Es|].
  assert (Hseed : match wh_cli_seed single with AtPosition p => (p < length points - 1)%nat | _ => True end) by (destruct single; cbn; [destruct Hs; [discriminate|lia]|exact I]).
  destruct (in_range argsort Hsort points (Some (map d (range 0 N))) HN Hplane Hl (wh_cli_seed single) BothWays s Hseed Es) as [Hg Hn].
  rewrite Hpts in Hg, Hperm. destruct HP. split; [constructor; assumption|]. now split.
Qed.
Lemma wh_returns single minimize_K fuel o : single = false \/ (3 <= N)%nat ->
  wh_call argsort points overlap gap set_order eps N D d C L single minimize_K fuel = Some o ->
  exists rs, o = Returns (Some (encode rs)) /\ serves N D d C L eps eps rs.
Proof.
  intros Hs. destruct (wh_setup single Hs) as (rho & order & s & E1 & E2 & HW & Hg & Hn). unfold wh_call. rewrite E1, E2.
  destruct (wren_holliday_init _ _ _ _ _ _ _ _ _ _ _ _ _ _) as [r|] eqn:Ew; [|discriminate]. intros Eo. cbn [option_map] in Eo. injection Eo as <-.
  destruct (result _ _ _ _ _ _ _ _ _ _ _ _ HW _ _ _ Hg Hn Ew) as (rss0 & rss & rs & F0 & FI & V0 & V1 & Er' & Hin & Hb & _). subst r.
  exists rs. split; [reflexivity|]. rewrite Forall_forall in V1. now apply V1.
Qed.
Lemma wh_call_ends single : single = false \/ (3 <= N)%nat ->
  exists rs, serves N D d C L eps eps rs /\ ends_with (wh_call argsort points overlap gap set_order eps N D d C L single true) (Returns (Some (encode rs))).
Proof.
  intros Hs. destruct (wh_setup single Hs) as (rho & order & s & E1 & E2 & HW & Hg & Hn).
  destruct (ends _ _ _ _ _ _ _ overlap _ _ true true HW s eq_refl Hg) as (fuel0 & r & Hr).
  assert (Hc : forall fuel, (fuel0 <= fuel)%nat -> wh_call argsort points overlap gap set_order eps N D d C L single true fuel = Some (of_wh r)).
  { intros fuel Hf. unfold wh_call. rewrite E1, E2, (Hr fuel Hf). reflexivity. }
  destruct (wh_returns single true fuel0 _ Hs (Hc fuel0 (le_n _))) as (rs & Er & Hrs). exists rs. split; [exact Hrs|]. exists fuel0. intros fuel Hf. rewrite (Hc fuel Hf). now rewrite Er.
Qed.
End Wh.
