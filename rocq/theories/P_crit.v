(** * Choosing an insertion in one pass or in two *)
From Verif Require Import Spec M_cins Spec_crit.
From Coq Require Import ZifyBool ZifyNat Lia Arith List.
Import ListNotations.
Local Open Scope Z_scope.

Lemma least_place (e : nat * nat * nat -> Z) u cands x : In x cands -> customer x = u ->
  exists y, In y cands /\ customer y = u /\ forall z, In z cands -> customer z = u -> e y <= e z.
Proof.
  revert x. induction cands as [|a t IH]; intros x [].
  - subst a. intros Hu. destruct (existsb (fun z => Nat.eqb (customer z) u) t) eqn:E.
    + apply existsb_exists in E as (z & Hz & Ez). apply Nat.eqb_eq in Ez. destruct (IH z Hz Ez) as (y & Hy & Hyu & Hm).
      destruct (Z.le_gt_cases (e x) (e y)) as [Hle|Hgt].
      * exists x. split; [now left|]. split; [exact Hu|]. intros w [<-|Hw] Hwu; [lia|]. specialize (Hm w Hw Hwu). lia.
      * exists y. split; [now right|]. split; [exact Hyu|]. intros w [<-|Hw] Hwu; [lia|]. now apply Hm.
    + exists x. split; [now left|]. split; [exact Hu|]. intros w [<-|Hw] Hwu; [lia|].
      exfalso. assert (existsb (fun z => Nat.eqb (customer z) u) t = true); [|congruence].
      apply existsb_exists. exists w. split; [exact Hw|]. now apply Nat.eqb_eq.
  - intros Hu. destruct (IH x H Hu) as (y & Hy & Hyu & Hm). destruct (Nat.eq_dec (customer a) u) as [Ha|Ha].
    + destruct (Z.le_gt_cases (e a) (e y)) as [Hle|Hgt].
      * exists a. split; [now left|]. split; [exact Ha|]. intros w [<-|Hw] Hwu; [lia|]. specialize (Hm w Hw Hwu). lia.
      * exists y. split; [now right|]. split; [exact Hyu|]. intros w [<-|Hw] Hwu; [lia|]. now apply Hm.
    + exists y. split; [now right|]. split; [exact Hyu|]. intros w [<-|Hw] Hwu; [now exfalso|]. now apply Hm.
Qed.

Lemma one_pass den ln mn D cands x : In x cands ->
  ((forall y, In y cands -> fst (criterion_at (param_criteria den ln mn D) y) <= fst (criterion_at (param_criteria den ln mn D) x)) <->
   two_pass_choice den ln mn D cands x).
Proof.
  intros Hx. unfold two_pass_choice, least_detour.
  assert (E : forall y, fst (criterion_at (param_criteria den ln mn D) y) = ln * D 0%nat (customer y) - detour den mn D y)
    by (intros [[i u] j]; unfold criterion_at, param_criteria, customer, detour; cbn [fst snd]; ring).
  split.
  - intros H. split.
    + split; [exact Hx|]. intros z Hz Ez. specialize (H z Hz). rewrite !E, Ez in H. lia.
    + intros y [Hy _]. specialize (H y Hy). now rewrite !E in H.
  - intros [[_ _] H2] y Hy. rewrite !E.
    destruct (least_place (detour den mn D) (customer y) cands y Hy eq_refl) as (z & Hz & Ez & Hm).
    specialize (H2 z). assert (Hzz : In z cands /\ (forall w, In w cands -> customer w = customer z -> detour den mn D z <= detour den mn D w)).
    { split; [exact Hz|]. intros w Hw Ew. apply Hm; congruence. }
    specialize (H2 Hzz). specialize (Hm y Hy eq_refl). rewrite Ez in H2. lia.
Qed.
