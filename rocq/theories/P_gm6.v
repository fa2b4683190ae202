(** * Gillett and Miller's exchange rule *)
From Verif Require Import Spec Spec_rfcs Spec_inter Spec_savings Spec_sweep PyBase P_base M_util M_psavings M_ssavings M_savfam M_nn M_sweep M_gm Spec_gm P_sweep P_sweep2 P_sweep3 P_sweep4 P_ssavings P_gm P_gm2.
From Coq Require Import ZifyBool ZifyNat Lia Arith List Permutation Sorting.Sorted.
Import ListNotations.
Local Open Scope Z_scope.

(** ** Neighbour lists *)
Definition nearer (x y : nat * Z) : Prop := snd x < snd y \/ (snd x = snd y /\ (fst x < fst y)%nat).
Lemma insert_sorted x l : StronglySorted nearer l -> (forall y, In y l -> (fst x < fst y)%nat) -> StronglySorted nearer (nn_insert x l).
Proof.
  induction l as [|y l IH]; intros Hs Hx; cbn [nn_insert]; [repeat constructor|].
  inversion Hs as [|? ? S1 S2]; subst. destruct (snd x <=? snd y) eqn:E.
  - constructor; [exact Hs|]. assert (Hxy : nearer x y). { unfold nearer. specialize (Hx y (or_introl eq_refl)). lia. }
    constructor; [exact Hxy|]. rewrite Forall_forall in *. intros z Hz. specialize (S2 z Hz). unfold nearer in *. lia.
  - constructor; [apply IH; [exact S1|intros z Hz; apply Hx; now right]|]. apply Forall_forall. intros z Hz.
    apply (Permutation_in _ (nn_insert_perm x l)) in Hz. destruct Hz as [<-|Hz]; [unfold nearer; lia|]. rewrite Forall_forall in S2. exact (S2 z Hz).
Qed.
Lemma sort_sorted (D : matrix) i : forall n a, StronglySorted nearer (nn_sort (map (fun j => (j, D i j)) (seq a n))).
Proof.
  induction n as [|n IH]; intros a; cbn; [constructor|]. apply insert_sorted; [apply IH|]. intros y Hy.
  apply (Permutation_in _ (nn_sort_perm _)) in Hy. apply in_map_iff in Hy. destruct Hy as (j & <- & Hj). apply in_seq in Hj. cbn. lia.
Qed.
Lemma find_sorted (D : matrix) i (p : nat -> bool) : forall l, StronglySorted nearer l -> (forall y, In y l -> snd y = D i (fst y)) ->
  forall x, find p (map fst l) = Some x -> forall y, In y (map fst l) -> p y = true -> D i x < D i y \/ (D i x = D i y /\ (x <= y)%nat).
Proof.
  induction l as [|z l IH]; intros Hs Hl x Hx y Hy Hpy; [easy|]. inversion Hs as [|? ? S1 S2]; subst. cbn [map find] in *.
  assert (Hz := Hl z (or_introl eq_refl)). destruct (p (fst z)) eqn:Ez.
  - injection Hx as <-. destruct Hy as [<-|Hy]; [right; split; [reflexivity|lia]|]. apply in_map_iff in Hy. destruct Hy as (w & <- & Hw).
    rewrite Forall_forall in S2. specialize (S2 w Hw). assert (Hw' := Hl w (or_intror Hw)). unfold nearer in S2. rewrite Hz, Hw' in S2. lia.
  - destruct Hy as [<-|Hy]; [congruence|]. apply IH; try assumption. intros w Hw. apply Hl. now right.
Qed.
Lemma find_closest N D (p : nat -> bool) i x : p 0%nat = false -> find p (nn_row N D i) = Some x -> closest N D (fun y => p y = true) i x.
Proof.
  intros H0 H. assert (G := find_some _ _ H). destruct G as (G1 & G2). apply nn_row_in in G1.
  split; [destruct x; [congruence|lia]|]. split; [exact G2|]. intros y Hy Hpy.
  apply (find_sorted D i p (nn_sort (map (fun j => (j, D i j)) (range 0 N)))); [|intros z Hz|exact H| |exact Hpy].
  - unfold range. apply sort_sorted.
  - apply (Permutation_in _ (nn_sort_perm _)) in Hz. apply in_map_iff in Hz. destruct Hz as (j & <- & _). reflexivity.
  - change (In y (nn_row N D i)). apply nn_row_in. lia.
Qed.
Lemma closest_unique N D ok i x y : closest N D ok i x -> closest N D ok i y -> x = y.
Proof.
  intros (A1 & A2 & A3) (B1 & B2 & B3). destruct (A3 y B1 B2) as [G|G], (B3 x A1 A2) as [G'|G']; lia.
Qed.
Lemma remove_leaves score : forall l k, gm_remove score l = Some k -> leaves score l k.
Proof.
  induction l as [|x l IH]; intros k H; [easy|]. cbn [gm_remove] in H. destruct (gm_remove score l) as [y|] eqn:E.
  - destruct (IH y eq_refl) as (a & b & E1 & E2 & E3). destruct (score y <? score x) eqn:Es; injection H as <-.
    + exists (x :: a), b. split; [cbn; now rewrite E1|]. split; [|exact E3]. intros z [<-|Hz]; [lia|exact (E2 z Hz)].
    + exists [], l. split; [reflexivity|]. split; [easy|]. intros z Hz. rewrite E1 in Hz. apply in_app_or in Hz.
      destruct Hz as [Hz|[<-|Hz]]; [specialize (E2 z Hz)| |specialize (E3 z Hz)]; lia.
  - injection H as <-. exists [], l. split; [reflexivity|]. split; [easy|]. destruct l as [|z l]; [easy|]. cbn in E. destruct (gm_remove score l); [destruct (_ <? _)|]; discriminate.
Qed.
Lemma remove_some score l : l <> [] -> exists k, gm_remove score l = Some k.
Proof. destruct l as [|x l]; [easy|]. intros _. cbn. destruct (gm_remove score l); [destruct (_ <? _)|]; eexists; reflexivity. Qed.

(** ** Going round *)
Section Round.
Variable order : list nat.
Variable ccw : bool.
Notation len := (length order).
Notation posn s t := (Nat.iter t (sw_step ccw (len - 1)) s).
Lemma round s : (s < len)%nat -> posn s len = s.
Proof.
  intros Hs. set (n := len) in *. destruct ccw.
  - transitivity (Nat.iter (s + (1 + (n - 1 - s))) (sw_step true (n - 1)) s); [f_equal; lia|].
    rewrite !iter_plus, (up_steps n s) by lia. cbn [Nat.iter nat_rect].
    replace (sw_step true (n - 1) _) with 0%nat by (unfold sw_step; destruct (Nat.ltb_spec (n-1) (S (s + (n-1-s)))); lia).
    rewrite up_steps by lia. lia.
  - transitivity (Nat.iter ((n - 1 - s) + (1 + s)) (sw_step false (n - 1)) s); [f_equal; lia|]. rewrite !iter_plus, (down_steps n s s) by lia. rewrite Nat.sub_diag. cbn [Nat.iter nat_rect].
    unfold sw_step at 2. rewrite down_steps by lia. lia.
Qed.
Lemma rounds s k : (s < len)%nat -> posn s k = posn s (Nat.modulo k len).
Proof.
  intros Hs. assert (E := Nat.div_mod k len ltac:(lia)). transitivity (posn s (k mod len + len * (k / len))); [f_equal; lia|]. rewrite iter_plus. f_equal. clear E.
  induction (k / len)%nat as [|q IH]; [now rewrite Nat.mul_0_r|]. rewrite Nat.mul_succ_r, iter_plus, round; assumption.
Qed.
Lemma node_round s k : (s < len)%nat -> node_at order (posn s k) = nth (Nat.modulo k len) (circle ccw order s) 0%nat.
Proof. intros Hs. rewrite rounds by exact Hs. symmetry. apply circle_nth; [exact Hs|]. apply Nat.mod_upper_bound. lia. Qed.
Lemma step_before s : (s < len)%nat -> sw_step (negb ccw) (len - 1) s = posn s (len - 1).
Proof.
  intros Hs. transitivity (sw_step (negb ccw) (len - 1) (posn s (S (len - 1)))); [f_equal; replace (S (len - 1)) with len by lia; symmetry; apply round, Hs|].
  cbn [Nat.iter nat_rect]. apply step_back. apply steps_lt, Hs.
Qed.
Lemma last_before s : (s < len)%nat -> node_at order (sw_step (negb ccw) (len - 1) s) = just_before ccw order s.
Proof.
  intros Hs. rewrite (step_before s Hs), node_round by exact Hs. rewrite Nat.mod_small by lia. unfold just_before.
  assert (Hl : length (circle ccw order s) = len) by (apply Permutation_length, circle_perm).
  generalize (circle ccw order s) Hl. intros l El. rewrite <- El. clear. induction l as [|a [|b l] IH]; [reflexivity|reflexivity|].
  cbn [length] in *. rewrite Nat.sub_succ, Nat.sub_0_r in *. cbn [last nth]. exact IH.
Qed.
(** The next [n] nodes *)
Definition upcoming (s n : nat) : list nat := map (fun i => node_at order (posn s i)) (seq 0 n).
Lemma upcoming_split s n : (s < len)%nat -> exists rest, upcoming s n = firstn n (circle ccw order s) ++ rest /\ incl rest (firstn n (circle ccw order s)).
Proof.
  intros Hs. assert (Hl : length (circle ccw order s) = len) by (apply Permutation_length, circle_perm).
  assert (Hsmall : forall m, (m <= len)%nat -> upcoming s m = firstn m (circle ccw order s)).
  { intros m Hm. apply nth_ext with 0%nat 0%nat.
    - unfold upcoming. rewrite map_length, seq_length, firstn_length. lia.
    - unfold upcoming. rewrite map_length, seq_length. intros i Hi.
      rewrite (nth_indep _ 0%nat (node_at order (posn s 0))) by (rewrite map_length, seq_length; exact Hi).
      rewrite (map_nth (fun i => node_at order (posn s i)) (seq 0 m) 0%nat i), seq_nth by exact Hi. cbn [Nat.add].
      rewrite nth_firstn' by exact Hi. symmetry. apply circle_nth; lia. }
  destruct (le_lt_dec n len) as [H|H]; [exists []; rewrite app_nil_r; split; [apply Hsmall, H|easy]|].
  exists (map (fun i => node_at order (posn s i)) (seq len (n - len))). rewrite (firstn_all2 (n := n)) by lia. split.
  - unfold upcoming. replace n with (len + (n - len))%nat at 1 by lia. rewrite seq_app, map_app. f_equal. rewrite <- (firstn_all (circle ccw order s)), Hl. apply Hsmall. lia.
  - intros x Hx. apply in_map_iff in Hx. destruct Hx as (i & <- & _). rewrite node_round by exact Hs. apply nth_In. rewrite Hl. apply Nat.mod_upper_bound. lia.
Qed.
End Round.

(** ** Ordered sets *)
Lemma oset_old l : forall acc, incl l acc -> fold_left oset_add l acc = acc.
Proof.
  induction l as [|x l IH]; intros acc H; [reflexivity|]. cbn [fold_left]. unfold oset_add at 2. rewrite (proj2 (mem_in x acc)) by (apply H; now left).
  apply IH. intros y Hy. apply H. now right.
Qed.
Lemma oset_new l : forall acc, NoDup (acc ++ l) -> fold_left oset_add l acc = acc ++ l.
Proof.
  induction l as [|x l IH]; intros acc H; [now rewrite app_nil_r|]. cbn [fold_left]. unfold oset_add at 2.
  assert (Hx : mem x acc = false). { apply mem_false. intros Hin. apply NoDup_remove_2 in H. apply H, in_or_app. now left. }
  rewrite Hx, IH; rewrite <- app_assoc; [reflexivity|exact H].
Qed.
Lemma oset_all l l' : NoDup l -> incl l' l -> fold_left oset_add (l ++ l') [] = l.
Proof. intros H1 H2. rewrite fold_left_app, (oset_new l []) by exact H1. apply oset_old, H2. Qed.

Section Chain.
Variable N : nat.
Variable order : list nat.
Variable ccw : bool.
Variable routed : nat -> bool.
Hypothesis Hlen : length order = (N - 1)%nat.
Notation fr := (filter (fun x => negb (routed x))).
Notation not_z jii := (filter (fun x => negb (match jii with Some y => Nat.eqb x y | None => false end))).

Lemma lookahead_fold kii jjx jii : (forall y, jii = Some y -> y <> jjx) -> forall n s p d3 d4 d6 b1 b2, p = sw_step ccw (N - 2) s ->
  gm_lookahead N order ccw routed n s kii jjx jii d3 d4 d6 b1 b2 =
  (let xs := fr (upcoming order ccw p n) in
   (fold_left oset_add xs d3, fold_left oset_add (put_back kii jjx xs) d4, fold_left oset_add (put_back kii jjx (not_z jii xs)) d6,
    b1 || mem jjx xs, b2 || (match jii with Some y => mem y xs | None => false end), Nat.iter n (sw_step ccw (N - 2)) s)).
Proof.
  intros Hji. induction n as [|n IH]; intros s p d3 d4 d6 b1 b2 Ep.
  - cbn. rewrite !Bool.orb_false_r. destruct jii; rewrite ?Bool.orb_false_r; reflexivity.
  - assert (Hup : upcoming order ccw p (S n) = node_at order p :: upcoming order ccw (sw_step ccw (N - 2) p) n).
    { unfold upcoming. cbn [seq map Nat.iter nat_rect]. f_equal. rewrite <- seq_shift, map_map. apply map_ext. intros i.
      replace (length order - 1)%nat with (N - 2)%nat by lia. f_equal. replace (S i) with (i + 1)%nat by lia. rewrite iter_plus. reflexivity. }
    rewrite Hup. cbn [gm_lookahead]. rewrite <- Ep.
    assert (Hit : Nat.iter (S n) (sw_step ccw (N - 2)) s = Nat.iter n (sw_step ccw (N - 2)) p).
    { rewrite Ep. replace (S n) with (n + 1)%nat by lia. rewrite iter_plus. reflexivity. }
    rewrite Hit. cbn [filter]. set (x := node_at order p). destruct (routed x); cbn [negb]; [rewrite (IH p _ _ _ _ _ _ eq_refl); reflexivity|].
    assert (Hm : forall y l, mem y (x :: l) = Nat.eqb x y || mem y l) by (intros y l; unfold mem; cbn [existsb]; now rewrite (Nat.eqb_sym y x)).
    destruct (Nat.eqb x jjx) eqn:Ex.
    + rewrite (IH p _ _ _ _ _ _ eq_refl). cbv zeta. apply Nat.eqb_eq in Ex.
      assert (Ez : match jii with Some y => Nat.eqb x y | None => false end = false).
      { destruct jii as [y|]; [|reflexivity]. apply Nat.eqb_neq. intros E. exact (Hji y eq_refl ltac:(congruence)). }
      cbn [filter put_back map fold_left]. rewrite Ez. cbn [negb put_back map fold_left]. rewrite <- Ex, Nat.eqb_refl.
      destruct jii as [y|]; rewrite !Hm, Nat.eqb_refl, ?Ez; cbn [orb]; rewrite Bool.orb_true_r; reflexivity.
    + destruct jii as [y|].
      * destruct (Nat.eqb x y) eqn:Ey; rewrite (IH p _ _ _ _ _ _ eq_refl); cbv zeta; cbn [filter put_back map fold_left]; rewrite Ey; cbn [negb map fold_left]; rewrite !Hm, Ex, ?Ey; cbn [orb];
          [now destruct b2|reflexivity].
      * rewrite (IH p _ _ _ _ _ _ eq_refl). cbv zeta. cbn [filter put_back map fold_left negb]. rewrite !Hm, Ex. reflexivity.
Qed.
End Chain.

(** ** The rule *)
Lemma fits_both_iff ceps seps C L a b : gm_fits ceps seps C L a b = true <-> fits_both_limits ceps seps C L a b.
Proof.
  unfold gm_fits, fits_both_limits, truthy. destruct L as [l|], C as [c|]; try (split; [easy|tauto]).
  - destruct (Z.eqb_spec l 0), (Z.eqb_spec c 0); try (split; [easy|tauto]). rewrite andb_true_iff, Z.ltb_lt, Z.leb_le. tauto.
  - destruct (Z.eqb_spec l 0); split; easy || tauto.
Qed.
Lemma put_back_in k x l : In x l -> put_back k x l <> [].
Proof. destruct l; [easy|discriminate]. Qed.
Lemma path_is_cost tsp D e l : l <> [] -> shortest_path tsp D e l = way_cost tsp D e l.
Proof. destruct l; [easy|reflexivity]. Qed.
Lemma put_back_nodup k x l : NoDup l -> ~ In k l -> NoDup (put_back k x l).
Proof.
  induction l as [|y l IH]; intros H1 H2; [constructor|]. inversion H1 as [|? ? G1 G2]; subst. cbn [put_back map]. constructor; [|apply IH; [exact G2|intros H; apply H2; now right]].
  intros Hin. apply in_map_iff in Hin. destruct Hin as (z & Ez & Hz). destruct (Nat.eqb_spec z x) as [Hz1|Hz1]; destruct (Nat.eqb_spec y x) as [Hy1|Hy1].
  - apply G1. congruence.
  - apply H2. left. congruence.
  - apply H2. right. congruence.
  - apply G1. congruence.
Qed.

Section Rule.
Variables ceps seps : Z.
Variable N : nat.
Variable D : matrix.
Variable d : demands.
Variables C L : limit.
Variable tsp : matrix -> routing.
Variable order : list nat.
Variable ccw : bool.
Variable score : nat -> Z.
Variable routed : nat -> bool.
Variable r : swroute.
Variable pos : nat.
Hypothesis Hp : Permutation order (seq 1 (N - 1)).
Hypothesis Hpos : (pos < N - 1)%nat.
Hypothesis Hne : sr_set r <> [].
Hypothesis Hnd : NoDup (sr_set r).
Hypothesis Hr : forall x, In x (sr_set r) -> routed x = true.
Hypothesis H0 : routed 0%nat = true.
Hypothesis Hc : limit_set C -> sr_demand r = demand d (sr_set r).
Notation J := (nth pos order 0%nat).
Hypothesis HJ : routed J = false.
Notation R := (sr_set r).
Notation chain := (ahead ccw order routed pos).
Notation e := (path_end ccw order routed pos).
Notation w1 := (worth_one ceps seps D d C L tsp R (sr_cost r) chain e).
Notation w2 := (worth_two ceps seps D d C L tsp R (sr_cost r) chain e).
Notation res := (gm_callback ceps seps N D d C L tsp order ccw score routed r pos).

Lemma rule_len : length order = (N - 1)%nat.
Proof. now rewrite (Permutation_length Hp), seq_length. Qed.
Lemma chain_nodup : NoDup (ahead ccw order routed pos).
Proof.
  apply NoDup_filter. assert (G : NoDup (circle ccw order pos)).
  { apply (Permutation_NoDup (Permutation_sym (circle_perm ccw order pos))), (Permutation_NoDup (Permutation_sym Hp)), seq_NoDup. }
  rewrite <- (firstn_skipn 5 (circle ccw order pos)) in G. apply NoDup_app_remove_r in G. exact G.
Qed.
Lemma del_is k : del k R = filter (fun y => negb (Nat.eqb y k)) R.
Proof. apply filter_ext. intros y. now rewrite Nat.eqb_sym. Qed.
Lemma set_limit : limit_set C <-> is_set C = true.
Proof. unfold limit_set, is_set, truthy. destruct C as [c|]; [|easy]. destruct (Z.eqb_spec c 0); easy. Qed.

Lemma rule_chain kii jjx jii : In kii R -> (forall y, jii = Some y -> y <> jjx) ->
  gm_lookahead N order ccw routed 5 (sw_step (negb ccw) (N - 2) pos) kii jjx jii [] [] [] false false =
  (chain, put_back kii jjx chain, put_back kii jjx (filter (fun x => negb (match jii with Some y => Nat.eqb x y | None => false end)) chain),
   mem jjx chain, (match jii with Some y => mem y chain | None => false end), Nat.iter 5 (sw_step ccw (N - 2)) (sw_step (negb ccw) (N - 2) pos)).
Proof.
  intros Hk Hji. assert (Hl := rule_len). assert (Ep : pos = sw_step ccw (N - 2) (sw_step (negb ccw) (N - 2) pos)).
  { rewrite <- (Bool.negb_involutive ccw) at 1. replace (N - 2)%nat with (N - 1 - 1)%nat by lia. symmetry. apply step_back. exact Hpos. }
  rewrite (lookahead_fold N order ccw routed Hl kii jjx jii Hji 5 _ pos [] [] [] false false Ep). cbv zeta. cbn [orb].
  destruct (upcoming_split order ccw pos 5 ltac:(lia)) as (rest & Eu & Hi). rewrite Eu, !filter_app. fold chain.
  set (rest' := filter (fun x => negb (routed x)) rest).
  assert (Hi' : incl rest' chain). { intros x Hx. apply filter_In in Hx. destruct Hx as (Hx1 & Hx2). apply filter_In. split; [apply Hi, Hx1|exact Hx2]. }
  assert (Hkc : ~ In kii chain). { intros H. apply filter_In in H. destruct H as (_ & H). rewrite (Hr kii Hk) in H. discriminate. }
  assert (Hm : forall y, mem y (chain ++ rest') = mem y chain).
  { intros y. rewrite mem_app. destruct (mem y chain) eqn:E; [reflexivity|]. cbn. apply mem_false. intros H. apply Hi', mem_in in H. congruence. }
  rewrite Hm. assert (E3 : fold_left oset_add (chain ++ rest') [] = chain) by (apply oset_all; [exact chain_nodup|exact Hi']). rewrite E3.
  assert (E4 : fold_left oset_add (put_back kii jjx (chain ++ rest')) [] = put_back kii jjx chain).
  { unfold put_back. rewrite map_app. apply oset_all; [apply put_back_nodup; [exact chain_nodup|exact Hkc]|]. intros x Hx. apply in_map_iff in Hx. destruct Hx as (y & <- & Hy). apply (in_map (fun y => if Nat.eqb y jjx then kii else y)), Hi', Hy. }
  rewrite E4. set (q := fun x => negb (match jii with Some y => Nat.eqb x y | None => false end)).
  assert (E6 : fold_left oset_add (put_back kii jjx (filter q chain ++ filter q rest')) [] = put_back kii jjx (filter q chain)).
  { unfold put_back. rewrite map_app. apply oset_all; [apply put_back_nodup; [apply NoDup_filter; exact chain_nodup|intros H; apply filter_In in H; easy]|].
    intros x Hx. apply in_map_iff in Hx. destruct Hx as (y & <- & Hy). apply (in_map (fun y => if Nat.eqb y jjx then kii else y)).
    apply filter_In in Hy. destruct Hy as (Hy1 & Hy2). apply filter_In. split; [apply Hi', Hy1|exact Hy2]. }
  rewrite E6. destruct jii as [y|]; rewrite ?Hm; reflexivity.
Qed.
Lemma rule_end : (let x := node_at order (sw_step ccw (N - 2) (Nat.iter 5 (sw_step ccw (N - 2)) (sw_step (negb ccw) (N - 2) pos))) in if routed x then 0%nat else x) = e.
Proof.
  assert (Hl := rule_len). assert (Ep : sw_step ccw (N - 2) (sw_step (negb ccw) (N - 2) pos) = pos).
  { rewrite <- (Bool.negb_involutive ccw) at 1. replace (N - 2)%nat with (N - 1 - 1)%nat by lia. apply step_back. exact Hpos. }
  change (sw_step ccw (N - 2) (Nat.iter 5 (sw_step ccw (N - 2)) (sw_step (negb ccw) (N - 2) pos))) with (Nat.iter 5 (sw_step ccw (N - 2)) (sw_step ccw (N - 2) (sw_step (negb ccw) (N - 2) pos))).
  rewrite Ep. unfold path_end. replace (N - 2)%nat with (length order - 1)%nat by lia. rewrite (node_round order ccw pos 5) by lia. reflexivity.
Qed.

Lemma exchange_rule : exists k x, leaves score R k /\ closest N D (fun y => routed y = false) (just_before ccw order pos) x /\
  (w1 k x -> answers (tsp D) res (with_one R k x) [x] (k :: if Nat.eqb x J then [] else [J])) /\
  (~ w1 k x ->
    (forall z, closest N D (fun y => routed y = false /\ y <> x) x z -> w2 k x z ->
       answers (tsp D) res (with_two R k x z) [x; z] (k :: if Nat.eqb x J || Nat.eqb z J then [] else [J])) /\
    ((forall z, closest N D (fun y => routed y = false /\ y <> x) x z -> ~ w2 k x z) -> res = (r, [], [], true))).
Proof.
  assert (Hl := rule_len). destruct (remove_some score R Hne) as (k & Ek).
  assert (HkR : In k R) by (apply (gm_remove_in score), Ek).
  assert (HJO : In J order) by (apply nth_In; lia).
  assert (HJN : (1 <= J < N)%nat) by (apply (Permutation_in _ Hp), in_seq in HJO; lia).
  unfold gm_callback. change (node_at order pos) with J. rewrite HJ, Ek.
  replace (node_at order (sw_step (negb ccw) (N - 2) pos)) with (just_before ccw order pos).
  2:{ replace (N - 2)%nat with (length order - 1)%nat by lia. symmetry. apply last_before. lia. }
  set (p := just_before ccw order pos).
  destruct (find_some_in (fun x => negb (routed x)) (nn_row N D p) J) as (x & Ex); [apply nn_row_in; lia|now rewrite HJ|]. rewrite Ex.
  exists k, x. split; [apply remove_leaves, Ek|].
  assert (Cx : closest N D (fun y => routed y = false) p x).
  { assert (G : closest N D (fun y => negb (routed y) = true) p x) by (apply (find_closest N D (fun y => negb (routed y))); [now rewrite H0|exact Ex]).
    destruct G as (G1 & G2 & G3). split; [exact G1|]. split; [destruct (routed x); easy|]. intros y Hy Hy2. apply G3; [exact Hy|now rewrite Hy2]. }
  split; [exact Cx|].
  set (q := fun z => negb (routed z) && negb (Nat.eqb z x)). set (jii := find q (nn_row N D x)).
  assert (Cz : forall z, closest N D (fun y => routed y = false /\ y <> x) x z <-> jii = Some z).
  { assert (Hok : forall z, q z = true <-> routed z = false /\ z <> x).
    { intros z. unfold q. rewrite andb_true_iff, !negb_true_iff, Nat.eqb_neq. tauto. }
    assert (Hfw : forall z, jii = Some z -> closest N D (fun y => routed y = false /\ y <> x) x z).
    { intros z Ez. assert (G := find_closest N D q x z). destruct G as (G1 & G2 & G3); [unfold q; now rewrite H0|exact Ez|].
      split; [exact G1|]. split; [apply Hok, G2|]. intros y Hy Hy2. apply G3; [exact Hy|apply Hok, Hy2]. }
    intros z. split; [|apply Hfw]. intros Hz. destruct (find_some_in q (nn_row N D x) z) as (z' & Ez'); [apply nn_row_in; destruct Hz; lia|apply Hok; apply Hz|].
    fold jii in Ez'. rewrite Ez'. f_equal. exact (closest_unique N D _ x z' z (Hfw z' Ez') Hz). }
  rewrite del_is. fold (with_one R k x).
  assert (Edem : limit_set C -> (if is_set C then sr_demand r - d k + d x else 0) = demand d (with_one R k x)).
  { intros HC. rewrite (proj1 set_limit HC), (Hc HC), (demand_perm d _ _ (del_perm k R Hnd HkR)), demand_cons. unfold with_one.
    rewrite demand_app, demand_cons, <- del_is. change (demand d []) with 0. lia. }
  set (dem2 := if is_set C then sr_demand r - d k + d x else 0) in *.
  destruct (tsp D (0%nat :: with_one R k x)) as (t2, c2) eqn:E2.
  assert (Hset : forall a b, fits_both_limits ceps seps C L a b -> limit_set C).
  { intros a b. unfold fits_both_limits, limit_set. destruct C, L; tauto. }
  assert (Hcan : gm_fits ceps seps C L c2 dem2 = true <-> can_take ceps seps D d C L tsp (with_one R k x)).
  { rewrite fits_both_iff. unfold can_take. rewrite E2. cbn [snd]. split; intros H; (assert (G := Hset _ _ H)); [rewrite <- Edem|rewrite Edem]; assumption. }
  destruct (gm_fits ceps seps C L c2 dem2) eqn:Ef; cbn [negb].
  2:{ assert (Hno : ~ can_take ceps seps D d C L tsp (with_one R k x)) by (intros H; apply Hcan in H; discriminate). split; [intros (H & _); easy|]. intros _. split; [intros z _ (H & _); easy|reflexivity]. }
  assert (Hcan1 := proj1 Hcan eq_refl). clear Hcan.
  rewrite (rule_chain k x jii HkR) by (intros y Hy; apply Cz in Hy; apply Hy).
  destruct (mem x chain) eqn:Em; cbn [negb].
  2:{ apply mem_false in Em. split; [intros (_ & H & _); easy|]. intros _. split; [intros z _ (_ & H & _); easy|reflexivity]. }
  apply mem_in in Em. assert (Ee := rule_end). cbv zeta in Ee. cbv zeta. rewrite !Ee.
  rewrite (path_is_cost tsp D e chain) by (intros E; rewrite E in Em; easy). rewrite (path_is_cost tsp D e (put_back k x chain)) by (apply put_back_in, Em).
  match goal with |- context [negb ?b] => destruct b eqn:Eb end; cbn [negb].
  - assert (Hnw : ~ w1 k x). { intros (_ & _ & H). rewrite E2 in H. cbn [snd] in H. lia. }
    split; [intros H; easy|]. intros _. destruct jii as [z|] eqn:Ez.
    2:{ split; [intros z Hz; apply Cz in Hz; discriminate|reflexivity]. }
    assert (Hzc : closest N D (fun y => routed y = false /\ y <> x) x z) by (now apply Cz).
    assert (Hone : forall z', closest N D (fun y => routed y = false /\ y <> x) x z' -> z' = z) by (intros z' H; exact (closest_unique N D _ x z' z H Hzc)).
    destruct (mem z chain) eqn:Emz.
    2:{ apply mem_false in Emz. split; [|reflexivity]. intros z' Hz'. rewrite (Hone z' Hz'). intros (_ & _ & _ & H & _). easy. }
    apply mem_in in Emz. fold (with_two R k x z). destruct (tsp D (0%nat :: with_two R k x z)) as (t5, c5) eqn:E5.
    set (dem5 := if is_set C then dem2 + d z else 0).
    assert (Edem5 : limit_set C -> dem5 = demand d (with_two R k x z)).
    { intros HC. unfold dem5. rewrite (proj1 set_limit HC), (Edem HC). unfold with_two. rewrite demand_app, demand_cons. change (demand d []) with 0. lia. }
    assert (Hcan : gm_fits ceps seps C L c5 dem5 = true <-> can_take ceps seps D d C L tsp (with_two R k x z)).
    { rewrite fits_both_iff. unfold can_take. rewrite E5. cbn [snd]. split; intros H; (assert (G := Hset _ _ H)); [rewrite <- Edem5|rewrite Edem5]; assumption. }
    destruct (gm_fits ceps seps C L c5 dem5) eqn:Ef5; cbn [negb].
    2:{ split; [|reflexivity]. intros z' Hz'. rewrite (Hone z' Hz'). intros (_ & _ & H & _). apply Hcan in H. discriminate. }
    assert (Hcan2 := proj1 Hcan eq_refl).
    rewrite path_is_cost.
    2:{ apply put_back_in. apply filter_In. split; [exact Em|]. apply negb_true_iff, Nat.eqb_neq. destruct Hzc as (_ & (_ & Hzx) & _). auto. }
    match goal with |- context [if ?b then (r, [], [], true) else _] => destruct b eqn:Eb2 end.
    + assert (Hn2 : ~ w2 k x z). { intros (_ & _ & _ & _ & H). rewrite E5 in H. cbn [snd] in H. lia. }
      split; [|reflexivity]. intros z' Hz'. rewrite (Hone z' Hz'). easy.
    + assert (Hw2 : w2 k x z).
      { split; [exact Hcan1|]. split; [exact Em|]. split; [exact Hcan2|]. split; [exact Emz|]. rewrite E5. cbn [snd]. lia. }
      split; [|intros H; exfalso; exact (H z Hzc Hw2)]. intros z' Hz' _. rewrite (Hone z' Hz'). eexists. split; [reflexivity|]. split; [reflexivity|]. cbn [sr_route sr_cost]. now rewrite E5.
  - assert (Hw : w1 k x). { split; [exact Hcan1|]. split; [exact Em|]. rewrite E2. cbn [snd]. lia. }
    split; [|intros H; easy]. intros _. eexists. split; [reflexivity|]. split; [reflexivity|]. cbn [sr_route sr_cost]. now rewrite E2.
Qed.
End Rule.
