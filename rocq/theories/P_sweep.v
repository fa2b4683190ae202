(** * A sweep ends and serves everyone *)
From Verif Require Import Spec Spec_rfcs Spec_inter Spec_savings PyBase P_base M_util M_psavings M_ssavings M_sweep.
From Coq Require Import ZifyBool ZifyNat Lia Arith List Permutation.
Import ListNotations.
Local Open Scope Z_scope.

(** ** Stepping around the circle *)
Lemma iter_plus {A} (g : A -> A) a b x : Nat.iter (a + b) g x = Nat.iter a g (Nat.iter b g x).
Proof. induction a as [|a IH]; cbn; [reflexivity|]. f_equal. exact IH. Qed.
Lemma step_lt ccw n p : (p < n)%nat -> (sw_step ccw (n - 1) p < n)%nat.
Proof. intros H. unfold sw_step. destruct ccw; [destruct (Nat.ltb_spec (n-1) (S p)); lia|destruct p; lia]. Qed.
Lemma steps_lt ccw n p j : (p < n)%nat -> (Nat.iter j (sw_step ccw (n - 1)) p < n)%nat.
Proof. intros H. induction j; cbn; [exact H|]. apply step_lt; assumption. Qed.
Lemma up_steps n p j : (p + j < n)%nat -> Nat.iter j (sw_step true (n - 1)) p = (p + j)%nat.
Proof.
  induction j as [|j IH]; intros H; cbn [Nat.iter nat_rect]; [lia|].
  change (nat_rect _ _ _ j) with (Nat.iter j (sw_step true (n-1)) p). rewrite IH by lia.
  unfold sw_step. destruct (Nat.ltb_spec (n-1) (S (p+j))); lia.
Qed.
Lemma down_steps n p j : (j <= p)%nat -> Nat.iter j (sw_step false (n - 1)) p = (p - j)%nat.
Proof.
  induction j as [|j IH]; intros H; cbn [Nat.iter nat_rect]; [lia|].
  change (nat_rect _ _ _ j) with (Nat.iter j (sw_step false (n-1)) p). rewrite IH by lia.
  unfold sw_step. destruct (p - j)%nat eqn:E; lia.
Qed.
Lemma reach ccw n p q : (p < n)%nat -> (q < n)%nat -> exists j, (1 <= j <= n)%nat /\ Nat.iter j (sw_step ccw (n - 1)) p = q.
Proof.
  intros Hp Hq. destruct ccw.
  - destruct (le_lt_dec q p) as [H|H].
    + exists (q + (1 + (n - 1 - p)))%nat. split; [lia|]. rewrite !iter_plus, (up_steps n p (n-1-p)) by lia.
      cbn [Nat.iter nat_rect]. replace (sw_step true (n-1) _) with 0%nat.
      * rewrite up_steps; lia.
      * unfold sw_step. destruct (Nat.ltb_spec (n-1) (S (p + (n-1-p)))); lia.
    + exists (q - p)%nat. split; [lia|]. rewrite up_steps; lia.
  - destruct (le_lt_dec p q) as [H|H].
    + exists ((n - 1 - q) + (1 + p))%nat. split; [lia|]. rewrite !iter_plus, (down_steps n p p) by lia.
      rewrite Nat.sub_diag. cbn [Nat.iter nat_rect]. unfold sw_step at 2. rewrite down_steps; lia.
    + exists (p - q)%nat. split; [lia|]. rewrite down_steps; lia.
Qed.
Lemma iter_S_out {A} (g : A -> A) j x : Nat.iter (S j) g x = Nat.iter j g (g x).
Proof. replace (S j) with (j + 1)%nat by lia. rewrite iter_plus. reflexivity. Qed.

From Verif Require Import P_ssavings.

Lemma demand_perm d l l' : Permutation l l' -> demand d l = demand d l'.
Proof.
  unfold demand. induction 1; cbn [map sumZ fold_right] in *; try reflexivity; try lia; unfold sumZ in *; cbn [map fold_right] in *; lia.
Qed.
Lemma demand_cons d x l : demand d (x :: l) = d x + demand d l.
Proof. reflexivity. Qed.
Lemma demand_snoc d x l : demand d (l ++ [x]) = demand d l + d x.
Proof. rewrite (demand_perm d (l ++ [x]) (x :: l)), demand_cons; [lia|]. apply Permutation_sym, Permutation_cons_append. Qed.

Section Sweep.
Variables ceps seps : Z.
Variable N : nat.
Variable D : matrix.
Variable d : demands.
Variables C L : limit.
Variable f : routing.
Variable order : list nat.
Variable ccw : bool.
Hypothesis Hf : solver N D f.
Hypothesis Halone : served_alone N D d C L ceps seps.
Hypothesis Hnd : NoDup order.
Hypothesis Hcust : forall x, In x order -> (1 <= x < N)%nat.
Notation len := (length order).

Definition carries (r : swroute) : Prop := is_set C = true -> sr_demand r = demand d (sr_set r).
(** The route is the tour of its nodes *)
Definition toured (r : swroute) : Prop :=
  exists l, sr_route r = 0%nat :: l ++ [0%nat] /\ sr_cost r = route_cost D l /\ Permutation l (sr_set r).

Lemma routed_by_f_ok r : sr_set r <> [] -> NoDup (sr_set r) -> incl (sr_set r) order ->
  toured (routed_by_f f r) /\ sr_set (routed_by_f f r) = sr_set r /\ sr_demand (routed_by_f f r) = sr_demand r /\
  sr_cost (routed_by_f f r) = snd (f (0%nat :: sr_set r)) /\ sr_route (routed_by_f f r) = fst (f (0%nat :: sr_set r)).
Proof using Hf Hcust.
  intros H1 H2 H3. destruct (Hf (sr_set r) H1 H2) as (l & El & Hl). { intros j Hj. apply Hcust, H3, Hj. }
  unfold routed_by_f. rewrite El. cbn. repeat split; auto. exists l. cbn. auto.
Qed.

Lemma node_at_in p : (p < len)%nat -> In (node_at order p) order.
Proof using Type. intros H. apply nth_In, H. Qed.
Lemma node_at_inj p q : (p < len)%nat -> (q < len)%nat -> node_at order p = node_at order q -> p = q.
Proof using Hnd. intros H1 H2 E. unfold node_at in E. exact (proj1 (NoDup_nth order 0%nat) Hnd p q H1 H2 E). Qed.
Lemma in_node_at x : In x order -> exists p, (p < len)%nat /\ node_at order p = x.
Proof using Type. intros H. destruct (In_nth order x 0%nat H) as (p & H1 & H2). exists p. auto. Qed.

Lemma single_within r : toured r -> (length (sr_set r) <= 1)%nat -> sr_set r <> [] -> incl (sr_set r) order -> within L seps (sr_cost r).
Proof using Halone Hcust.
  intros (l & _ & Ec & Hp) H1 H2 H3. destruct (sr_set r) as [|x [|]]; cbn in H1; try lia; [easy|].
  apply Permutation_sym, Permutation_length_1_inv in Hp. subst l. rewrite Ec. apply Halone. apply Hcust, H3. now left.
Qed.

Lemma ensure_ok : forall fuel p fp r routed,
  toured r -> sr_set r <> [] -> NoDup (sr_set r) -> incl (sr_set r) order -> carries r -> (p < len)%nat ->
  (exists j, (1 <= j)%nat /\ (j + (length (sr_set r) - 1) * len <= fuel)%nat /\
             In (node_at order (Nat.iter j (sw_step (negb ccw) (len - 1)) p)) (sr_set r)) ->
  exists fp' r' routed', ensure_L seps d C L f order ccw fuel p fp r routed = Some (fp', r', routed') /\
    toured r' /\ sr_set r' <> [] /\ NoDup (sr_set r') /\ incl (sr_set r') (sr_set r) /\ carries r' /\ within L seps (sr_cost r') /\
    (forall x, routed' x = if mem x (sr_set r) && negb (mem x (sr_set r')) then false else routed x) /\
    ((fp' = fp /\ r' = r) \/ ((fp' < len)%nat /\ In (node_at order fp') (sr_set r) /\ ~ In (node_at order fp') (sr_set r'))).
Proof using Hf Halone Hcust.
  induction fuel as [|fuel IH]; intros p fp r routed Ht Hne Hn Hi Hc Hp (j & Hj1 & Hj2 & Hj3); [exfalso; clear - Hj1 Hj2; revert Hj2; generalize ((length (sr_set r) - 1) * len)%nat; lia|].
  cbn [ensure_L]. destruct (exceeds L seps (sr_cost r)) eqn:Ex; cbn [negb].
  2:{ exists fp, r, routed. rewrite exceeds_within in Ex. split; [reflexivity|].
      do 6 (split; [auto using incl_refl|]). split; [|left; auto].
      intros x. destruct (mem x (sr_set r)); reflexivity. }
  set (p' := sw_step (negb ccw) (len - 1) p) in *.
  assert (Hp' : (p' < len)%nat) by (apply step_lt; exact Hp).
  assert (H2 : (2 <= length (sr_set r))%nat).
  { destruct (le_lt_dec (length (sr_set r)) 1) as [H|H]; [|lia]. apply exceeds_true in Ex. exfalso. apply Ex. apply single_within; assumption. }
  destruct (mem (node_at order p') (sr_set r)) eqn:Em.
  - apply mem_in in Em.
    set (n := node_at order p') in *.
    set (r1 := mkswr _ _ _ _). 
    assert (Hl : length (sr_set r) = S (length (del n (sr_set r)))) by (apply del_length; assumption).
    assert (A1 : sr_set r1 <> []). { cbn. intros E. rewrite E in Hl. cbn in Hl. lia. }
    assert (A2 : NoDup (sr_set r1)). { cbn. apply NoDup_filter; exact Hn. }
    assert (A3 : incl (sr_set r1) (sr_set r)). { cbn. intros x Hx. apply filter_In in Hx. tauto. }
    assert (Hinc : incl (sr_set r1) order) by (intros x Hx; apply Hi, A3, Hx).
    destruct (routed_by_f_ok r1 A1 A2 Hinc) as (B1 & B2 & B3 & _).
    assert (A4 : carries (routed_by_f f r1)).
    { intros HC. rewrite B2, B3. unfold r1. cbn [sr_demand sr_set]. rewrite HC, (Hc HC), (demand_perm d _ _ (del_perm n (sr_set r) Hn Em)), demand_cons. lia. }
    destruct (sr_set r1) as [|y t] eqn:Es1; [easy|].
    destruct (in_node_at y (Hinc y (or_introl eq_refl))) as (q & Hq & Eq).
    destruct (reach (negb ccw) len p' q Hp' Hq) as (j' & Hj' & Ej').
    destruct (IH p' p' (routed_by_f f r1) (upd routed n false)) as (fp' & r' & routed' & E & P1 & P2 & P3 & P4 & P5 & P6 & P7 & P8);
      try (rewrite B2; assumption); try assumption.
    { rewrite B2. exists j'. split; [lia|]. rewrite Ej', Eq. split; [|now left]. 
      cbn [sr_set r1] in Es1. rewrite Es1 in Hl. cbn [length] in Hl. rewrite Hl in Hj2. cbn [length].
      replace (S (length t) - 1)%nat with (length t) by lia. replace (S (S (length t)) - 1)%nat with (S (length t)) in Hj2 by lia.
      cbn [Nat.mul] in Hj2. lia. }
    exists fp', r', routed'. rewrite B2 in *. rewrite <- Es1 in *. cbn [sr_set r1] in *. split; [exact E|].
    do 3 (split; [assumption|]). split; [intros x Hx; apply A3, P4, Hx|]. split; [assumption|]. split; [assumption|].
    assert (Hn' : ~ In n (sr_set r')). { intros Hx. apply P4, filter_In in Hx. rewrite Nat.eqb_refl in Hx. destruct Hx; discriminate. }
    split.
    + intros x. rewrite P7. unfold upd. destruct (Nat.eqb_spec x n) as [->|Hx].
      * replace (mem n (sr_set r)) with true by (symmetry; apply mem_in, Em).
        destruct (mem n (sr_set r')) eqn:Eq'; [apply mem_in in Eq'; easy|]. cbn [negb andb]. destruct (mem n (del n (sr_set r)) && true); reflexivity.
      * replace (mem x (del n (sr_set r))) with (mem x (sr_set r)); [reflexivity|].
        apply Bool.eq_iff_eq_true. rewrite !mem_in. unfold del. rewrite filter_In. 
        split; [intros Hy; split; [exact Hy|]|tauto]. destruct (Nat.eqb_spec n x); [congruence|reflexivity].
    + right. destruct P8 as [(-> & ->)|(H3 & H4 & H5)].
      * split; [exact Hp'|]. split; [exact Em|exact Hn'].
      * split; [exact H3|]. split; [apply A3, H4|exact H5].
  - apply IH; try assumption. destruct j as [|j]; [lia|]. rewrite iter_S_out in Hj3. fold p' in Hj3.
    destruct j as [|j].
    + exfalso. cbn in Hj3. apply mem_in in Hj3. rewrite Em in Hj3. discriminate.
    + exists (S j). split; [lia|]. split; [lia|exact Hj3].
Qed.

(** ** The next customer *)
Lemma next_ok routed : forall n start p, (p < len)%nat -> (start < len)%nat ->
  (exists j, (1 <= j <= S n)%nat /\ Nat.iter j (sw_step ccw (len - 1)) p = start) ->
  let '(p', x) := next_unrouted order ccw n start p routed in
  (p' < len)%nat /\ match x with
    | Some y => y = node_at order p' /\ routed y = false
    | None => p' = start /\ forall j, (1 <= j)%nat -> (forall i, (1 <= i < j)%nat -> Nat.iter i (sw_step ccw (len - 1)) p <> start) -> routed (node_at order (Nat.iter j (sw_step ccw (len - 1)) p)) = true
    end.
Proof using Hcust.
  induction n as [|n IH]; intros start p Hp Hs (j & Hj & Ej).
  - assert (j = 1%nat) by lia. subst j. cbn [Nat.iter nat_rect] in Ej. cbn [next_unrouted]. rewrite Ej.
    destruct (routed (node_at order start)) eqn:Er; cbn [negb]; [|auto].
    rewrite Nat.eqb_refl. split; [exact Hs|]. split; [reflexivity|]. intros j Hj0 Hj1.
    assert (j = 1%nat) as ->. { destruct (Nat.eq_dec j 1); [assumption|]. exfalso. apply (Hj1 1%nat); [lia|exact Ej]. }
    cbn. rewrite Ej. exact Er.
  - cbn [next_unrouted]. set (p1 := sw_step ccw (len - 1) p) in *.
    assert (Hp1 : (p1 < len)%nat) by (apply step_lt; exact Hp).
    destruct (routed (node_at order p1)) eqn:Er; cbn [negb]; [|auto].
    destruct (Nat.eqb_spec p1 start) as [E1|E1].
    + split; [exact Hp1|]. split; [exact E1|]. intros i Hi0 Hi1.
      assert (i = 1%nat) as ->. { destruct (Nat.eq_dec i 1); [assumption|]. exfalso. apply (Hi1 1%nat); [lia|exact E1]. }
      cbn. exact Er.
    + destruct j as [|[|j]]; [lia|exfalso; apply E1; exact Ej|]. rewrite iter_S_out in Ej. fold p1 in Ej.
      assert (HX : exists i, (1 <= i <= S n)%nat /\ Nat.iter i (sw_step ccw (len - 1)) p1 = start) by (exists (S j); split; [lia|exact Ej]).
      specialize (IH start p1 Hp1 Hs HX). clear HX.
      destruct (next_unrouted order ccw n start p1 routed) as (p' & x). destruct IH as (G1 & G2). split; [exact G1|].
      destruct x as [y|]; [exact G2|]. destruct G2 as (G2 & G3). split; [exact G2|].
      intros i Hi0 Hi1. destruct i as [|[|i]]; [lia|exact Er|]. rewrite iter_S_out. fold p1. apply G3; [lia|].
      intros k Hk Ek. apply (Hi1 (S k)); [lia|]. rewrite iter_S_out. exact Ek.
Qed.

Lemma first_hit (g : nat -> nat) p q : forall j, Nat.iter j g p = q -> (1 <= j)%nat -> exists i, (1 <= i <= j)%nat /\ Nat.iter i g p = q /\ forall k, (1 <= k < i)%nat -> Nat.iter k g p <> q.
Proof using Hcust.
  induction j as [j IH] using lt_wf_ind. intros E Hj.
  destruct (Nat.eq_dec j 1) as [->|Hj1].
  { exists 1%nat. split; [lia|]. split; [exact E|]. intros; lia. }
  destruct (existsb (fun k => Nat.eqb (Nat.iter k g p) q) (seq 1 (j - 1))) eqn:Ex.
  - apply existsb_exists in Ex. destruct Ex as (k & Hk & Ek). apply in_seq in Hk. apply Nat.eqb_eq in Ek.
    destruct (IH k ltac:(lia) Ek ltac:(lia)) as (i & Hi & H2). exists i. split; [lia|exact H2].
  - exists j. split; [lia|]. split; [exact E|]. intros k Hk Ek.
    assert (existsb (fun k => Nat.eqb (Nat.iter k g p) q) (seq 1 (j - 1)) = true); [|congruence].
    apply existsb_exists. exists k. split; [apply in_seq; lia|apply Nat.eqb_eq, Ek].
Qed.

Lemma next_unrouted_ok routed p : (p < len)%nat ->
  let '(p', x) := next_unrouted order ccw len p p routed in
  (p' < len)%nat /\ match x with
    | Some y => y = node_at order p' /\ routed y = false
    | None => p' = p /\ forall y, In y order -> routed y = true
    end.
Proof using Hcust.
  intros Hp. destruct (reach ccw len p p Hp Hp) as (j0 & Hj0 & Ej0).
  assert (HX : exists i, (1 <= i <= S len)%nat /\ Nat.iter i (sw_step ccw (len - 1)) p = p) by (exists j0; split; [lia|exact Ej0]).
  assert (H := next_ok routed len p p Hp Hp HX). clear HX.
  destruct (next_unrouted order ccw len p p routed) as (p' & x). destruct H as (H1 & H2). split; [exact H1|].
  destruct x as [y|]; [exact H2|]. destruct H2 as (-> & H2). split; [reflexivity|]. intros y Hy.
  destruct (in_node_at y Hy) as (q & Hq & <-).
  (* the first return to p is after all positions *)
  destruct (reach ccw len p q Hp Hq) as (j & Hj & Ej).
  destruct (first_hit (sw_step ccw (len-1)) p p j0 Ej0 ltac:(lia)) as (i0 & Hi0 & Ei0 & Hfi).
  (* reduce j below i0 *)
  assert (Hred : forall m j, (j <= m)%nat -> (1 <= j)%nat -> Nat.iter j (sw_step ccw (len-1)) p = q -> exists j', (1 <= j' <= i0)%nat /\ Nat.iter j' (sw_step ccw (len-1)) p = q).
  { clear j Hj Ej. induction m as [|m IHm]; intros j Hjm Hj1 Ej; [lia|]. destruct (le_lt_dec j i0) as [G|G]; [exists j; split; [lia|exact Ej]|].
    apply (IHm (j - i0)%nat); [lia|lia|]. replace j with ((j - i0) + i0)%nat in Ej by lia. rewrite iter_plus, Ei0 in Ej. exact Ej. }
  destruct (Hred j j (le_n _) ltac:(lia) Ej) as (j' & Hj' & Ej'). rewrite <- Ej'. apply H2; [lia|].
  intros i Hi. apply Hfi. lia.
Qed.
End Sweep.
