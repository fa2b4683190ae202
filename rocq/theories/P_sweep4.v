(** * The sweep rule: routes are sectors *)
From Verif Require Import Spec Spec_rfcs Spec_inter Spec_savings Spec_driver PyBase P_base P_util M_util M_psavings M_ssavings M_savfam M_sweep Spec_sweep P_sweep P_sweep2 P_sweep3 P_ssavings.
From Coq Require Import ZifyBool ZifyNat Lia Arith List Permutation.
Import ListNotations.
Local Open Scope Z_scope.

Lemma nth_firstn' : forall n i (l : list nat) x, (i < n)%nat -> nth i (firstn n l) x = nth i l x.
Proof. induction n as [|n IH]; intros [|i] [|a l] x H; cbn; try lia; try reflexivity. apply IH. lia. Qed.
Lemma nth_skipn' : forall n i (l : list nat) x, nth i (skipn n l) x = nth (n + i) l x.
Proof. induction n as [|n IH]; intros i [|a l] x; cbn; try reflexivity; [destruct i; reflexivity|]. apply IH. Qed.

Lemma circle_nth ccw order start t : (start < length order)%nat -> (t < length order)%nat ->
  nth t (circle ccw order start) 0%nat = node_at order (Nat.iter t (sw_step ccw (length order - 1)) start).
Proof.
  intros Hs Ht. set (n := length order) in *. unfold circle, node_at. destruct ccw.
  - destruct (le_lt_dec (n - start) t) as [H|H].
    + rewrite app_nth2; rewrite skipn_length; fold n; [|lia]. rewrite nth_firstn' by lia.
      f_equal.
      assert (E : t = ((t - (n - start)) + (1 + (n - 1 - start)))%nat) by lia. set (u := (t - (n - start))%nat) in *. rewrite E. clear E.
      rewrite !iter_plus, (up_steps n start) by lia. cbn [Nat.iter nat_rect].
      replace (sw_step true (n - 1) _) with 0%nat by (unfold sw_step; destruct (Nat.ltb_spec (n-1) (S (start + (n-1-start)))); lia).
      rewrite up_steps by (unfold u; lia). reflexivity.
    + rewrite app_nth1 by (rewrite skipn_length; fold n; lia). rewrite nth_skipn', up_steps by lia. reflexivity.
  - assert (Hl : length (firstn (S start) order) = S start) by (apply firstn_length_le; fold n; lia).
    destruct (le_lt_dec (S start) t) as [H|H].
    + rewrite app_nth2; rewrite rev_length, Hl; [|lia]. rewrite rev_nth by (rewrite skipn_length; fold n; lia).
      rewrite nth_skipn', skipn_length. fold n.
      f_equal. assert (E : t = ((t - S start) + (1 + start))%nat) by lia. set (u := (t - S start)%nat) in *. rewrite E. clear E. rewrite !iter_plus, (down_steps n start start) by lia.
      rewrite Nat.sub_diag. cbn [Nat.iter nat_rect]. unfold sw_step at 2. rewrite down_steps by (unfold u; lia). unfold u. lia.
    + rewrite app_nth1 by (rewrite rev_length, Hl; lia). rewrite rev_nth by (rewrite Hl; lia). rewrite Hl, nth_firstn' by lia.
      rewrite down_steps by lia. f_equal; lia.
Qed.
Lemma circle_perm ccw order start : Permutation (circle ccw order start) order.
Proof.
  unfold circle. destruct ccw.
  - eapply Permutation_trans; [apply Permutation_app_comm|]. now rewrite firstn_skipn.
  - eapply Permutation_trans; [apply Permutation_app; apply Permutation_sym, Permutation_rev|]. now rewrite firstn_skipn.
Qed.
Lemma step_back ccw n p : (p < n)%nat -> sw_step (negb ccw) (n - 1) (sw_step ccw (n - 1) p) = p.
Proof.
  intros H. unfold sw_step. destruct ccw; cbn [negb].
  - destruct (Nat.ltb_spec (n-1) (S p)); [lia|reflexivity].
  - destruct p as [|p]; [destruct (Nat.ltb_spec (n-1) (S (n-1))); lia|]. destruct (Nat.ltb_spec (n-1) (S p)); lia.
Qed.

Lemma cut_snoc fit arcs a x after : cut_by_rule fit (a ++ x :: after) arcs -> a <> [] -> fit a -> ~ fit (a ++ [x]) ->
  cut_by_rule fit (x :: after) (arcs ++ [a]).
Proof.
  intros H Ha1 Ha2 Ha3. induction H as [|b arcs y after' H1 H2 H3 H4 H5 IH]; cbn [app].
  - apply cut_cons with x after; auto. constructor.
  - apply cut_cons with y after'; auto. rewrite concat_snoc, <- app_assoc. exact H3.
Qed.

Lemma del_last n s : ~ In n s -> del n (s ++ [n]) = s.
Proof.
  intros H. unfold del. rewrite filter_app. cbn. rewrite Nat.eqb_refl. cbn. rewrite app_nil_r.
  apply (del_notin n s H).
Qed.

Section Rule.
Variables ceps seps : Z.
Variable N : nat.
Variable D : matrix.
Variable d : demands.
Variables C L : limit.
Variable f : routing.
Variable order : list nat.
Variable ccw : bool.
Hypothesis Hf : solver N D f.
Hypothesis Halone : served_alone N D d C L ceps seps.
Hypothesis Hnd : NoDup order.
Hypothesis Hcust : forall x, In x order -> (1 <= x < N)%nat.
Hypothesis Hd : forall i, (1 <= i < N)%nat -> 0 <= d i.
Variable start : nat.
Hypothesis Hstart : (start < length order)%nat.
Notation len := (length order).
Notation circ := (circle ccw order start).
Notation fit := (fits ceps seps d C L f).
Notation posn t := (Nat.iter t (sw_step ccw (len - 1)) start).

Lemma circ_len : length circ = len.
Proof. apply Permutation_length, circle_perm. Qed.
Lemma circ_nodup : NoDup circ.
Proof. exact (Permutation_NoDup (Permutation_sym (circle_perm ccw order start)) Hnd). Qed.
Lemma circ_at t : (t < len)%nat -> node_at order (posn t) = nth t circ 0%nat.
Proof. intros H. symmetry. apply circle_nth; assumption. Qed.
Lemma posn_lt t : (posn t < len)%nat.
Proof. apply steps_lt, Hstart. Qed.
Lemma firstn_snoc t : (t < len)%nat -> firstn (S t) circ = firstn t circ ++ [nth t circ 0%nat].
Proof.
  intros H. rewrite <- circ_len in H. revert H. generalize circ. clear. intros l. revert t.
  induction l as [|a l IH]; intros [|t] H; cbn in *; try lia; [reflexivity|]. f_equal. apply IH. lia.
Qed.
Lemma fresh t : (t < len)%nat -> ~ In (nth t circ 0%nat) (firstn t circ).
Proof.
  intros H Hin. assert (G := circ_nodup). rewrite <- (firstn_skipn (S t) circ), firstn_snoc in G by exact H.
  apply NoDup_app_remove_r in G. apply NoDup_remove_2 in G. rewrite app_nil_r in G. easy.
Qed.

(** The check of L takes customers off the end of the sector. *)
Lemma ensure_prefix : forall fuel c r fp routed fp' r' routed',
  toured D r -> sr_set r <> [] -> NoDup (sr_set r) -> incl (sr_set r) order -> carries d C r ->
  (c + length (sr_set r) <= len)%nat -> (forall i, (i < length (sr_set r))%nat -> nth i (sr_set r) 0%nat = nth (c + i) circ 0%nat) ->
  sr_cost r = snd (f (0%nat :: sr_set r)) -> sr_route r = fst (f (0%nat :: sr_set r)) ->
  fp = posn (c + length (sr_set r)) ->
  ensure_L seps d C L f order ccw fuel fp fp r routed = Some (fp', r', routed') ->
  exists gone, sr_set r = sr_set r' ++ gone /\ fp' = posn (c + length (sr_set r')) /\ sr_set r' <> [] /\ toured D r' /\ carries d C r' /\
    sr_cost r' = snd (f (0%nat :: sr_set r')) /\ sr_route r' = fst (f (0%nat :: sr_set r')) /\ within L seps (sr_cost r') /\
    (match gone with [] => True | y :: _ => ~ fit (sr_set r' ++ [y]) end) /\
    (forall x, routed' x = routed x && negb (mem x gone)).
Proof using Hf Halone Hnd Hcust Hd Hstart.
  induction fuel as [|fuel IH]; intros c r fp routed fp' r' routed' Ht Hne Hn Hi Hc Hlen Hnth Hcost Hroute -> H; cbn [ensure_L] in H;
    destruct (exceeds L seps (sr_cost r)) eqn:Ex; cbn [negb] in H; try discriminate.
  - injection H as <- <- <-. exists []. rewrite app_nil_r. apply exceeds_within in Ex. do 9 (split; [auto; fail|]). intros x. cbn. now rewrite Bool.andb_true_r.
  - destruct (exists_last Hne) as (s & n & Es). 
    assert (Hls : length (sr_set r) = S (length s)) by (rewrite Es, app_length; cbn; lia).
    assert (Hs2 : s <> []).
    { intros ->. apply exceeds_true in Ex. apply Ex. apply (single_within ceps seps N D d C L order Halone Hcust); try assumption. rewrite Hls. cbn. lia. }
    rewrite Hls in H. replace (c + S (length s))%nat with (S (c + length s)) in H by lia.
    cbn [Nat.iter nat_rect] in H. change (nat_rect _ _ _ (c + length s)) with (posn (c + length s)) in H.
    rewrite step_back in H by apply posn_lt.
    assert (Hna : node_at order (posn (c + length s)) = n).
    { rewrite circ_at by lia. rewrite <- Hnth by lia. rewrite Es, app_nth2, Nat.sub_diag by lia. reflexivity. }
    assert (Hns : ~ In n s). { rewrite Es in Hn. apply NoDup_remove_2 in Hn. now rewrite app_nil_r in Hn. }
    rewrite Hna in H. rewrite (proj2 (mem_in n (sr_set r))) in H by (rewrite Es; apply in_or_app; right; now left).
    set (r1 := mkswr _ _ _ _) in H. assert (Er1 : sr_set r1 = s) by (cbn; rewrite Es; apply del_last, Hns).
    assert (Hn1 : NoDup (sr_set r1)) by (rewrite Er1; rewrite Es in Hn; apply NoDup_app_remove_r in Hn; exact Hn).
    assert (Hi1 : incl (sr_set r1) order) by (rewrite Er1; intros x Hx; apply Hi; rewrite Es; apply in_or_app; now left).
    destruct (routed_by_f_ok N D f order Hf Hcust r1) as (T1 & T2 & T3 & T4 & T5); [now rewrite Er1|assumption|assumption|].
    apply (IH c) in H; try (rewrite T2); try assumption; rewrite ?Er1; try assumption; try lia; try reflexivity.
    + destruct H as (gone & G1 & G2 & G3 & G4 & G5 & G6 & G7 & G8 & G9 & G10). rewrite T2, Er1 in G1.
      exists (gone ++ [n]). rewrite Es, G1, <- app_assoc. do 8 (split; [auto; fail|]). split.
      * destruct gone as [|y gone]; cbn [app]; [|exact G9]. rewrite app_nil_r in G1. rewrite <- G1. intros (_ & Hfit).
        apply exceeds_true in Ex. apply Ex. rewrite Hcost, Es. exact Hfit.
      * intros x. rewrite G10, mem_app. unfold upd. cbn [mem existsb]. destruct (Nat.eqb_spec x n) as [->|Hx].
        -- cbn. now rewrite Bool.orb_true_r, Bool.andb_false_r.
        -- cbn. now rewrite Bool.orb_false_r.
    + intros HC. rewrite T2, T3, Er1. unfold r1. cbn [sr_demand]. rewrite HC, (Hc HC), Es, demand_snoc. lia.
    + intros i Hi'. assert (G := Hnth i ltac:(lia)). rewrite Es, app_nth1 in G by exact Hi'. exact G.
  - injection H as <- <- <-. exists []. rewrite app_nil_r. apply exceeds_within in Ex. do 9 (split; [auto; fail|]). intros x. cbn. now rewrite Bool.andb_true_r.
Qed.

Record ruled (routes : list swroute) (arcs : list (list nat)) (routed : nat -> bool) (count t : nat) (r : swroute) : Prop := {
  ru_routes : Forall2 (fun x a => sr_route x = fst (f (0%nat :: a))) routes arcs;
  ru_arcs : concat arcs ++ sr_set r = firstn t circ;
  ru_cut : cut_by_rule fit (skipn (length (concat arcs)) circ) arcs;
  ru_routed : forall x, In x order -> routed x = mem x (firstn t circ);
  ru_count : count = length (concat arcs);
  ru_carries : carries d C r;
  ru_C : sr_set r <> [] -> within C ceps (demand d (sr_set r)) }.

Definition sweeping (st : swstate) (arcs : list (list nat)) (t : nat) : Prop :=
  ruled (sw_routes st) arcs (sw_routed st) (sw_count st) t (sw_current st) /\ (t < len)%nat /\
  sw_pos st = posn t /\ sw_node st = Some (nth t circ 0%nat) /\ sw_complete st = false.
Definition at_end (st : swstate) (arcs : list (list nat)) : Prop :=
  ruled (sw_routes st) arcs (sw_routed st) (sw_count st) len (sw_current st) /\
  sr_set (sw_current st) <> [] /\ sw_node st = None /\ sw_complete st = true.

Lemma rule_proceed routes arcs routed count t r bound : (t < len)%nat ->
  ruled routes arcs routed count t r -> within C ceps (demand d (sr_set r) + d (nth t circ 0%nat)) ->
  let st' := sw_proceed D d C L order ccw (posn t) (Some (nth t circ 0%nat)) routes routed count r bound in
  sweeping st' arcs (S t) \/ at_end st' arcs.
Proof using Hnd Hcust Hd Hstart.
  intros Ht [R1 R2 R3 R4 R5 R6 R7] HC. cbv zeta. set (x := nth t circ 0%nat) in *.
  assert (Hx : In x order). { apply (Permutation_in x (circle_perm ccw order start)), nth_In. rewrite circ_len. exact Ht. }
  unfold sw_proceed. rewrite (R4 x Hx), (proj2 (mem_false x _) (fresh t Ht)). cbn [negb].
  set (routed' := upd routed x true).
  assert (Hm : forall y, In y order -> routed' y = mem y (firstn (S t) circ)).
  { intros y Hy. unfold routed', upd. rewrite (firstn_snoc t Ht), mem_app. fold x. cbn [mem existsb]. destruct (Nat.eqb_spec y x) as [->|Hyx].
    - now rewrite Bool.orb_true_r.
    - rewrite (R4 y Hy). now rewrite !Bool.orb_false_r. }
  assert (HR : ruled routes arcs routed' count (S t) (add_node d C r x)).
  { constructor; try assumption.
    - rewrite (firstn_snoc t Ht), <- R2. cbn [sr_set add_node]. rewrite app_assoc. reflexivity.
    - intros HC'. unfold add_node. cbn [sr_demand sr_set]. rewrite HC', (R6 HC'), demand_snoc. reflexivity.
    - intros _. cbn [sr_set add_node]. rewrite demand_snoc. exact HC. }
  destruct (le_lt_dec len (S t)) as [Hend|Hmore].
  - assert (Et : S t = len) by lia. right.
    assert (Hall : forall y, In y order -> routed' y = true).
    { intros y Hy. rewrite (Hm y Hy), Et. rewrite <- circ_len, firstn_all. apply mem_in. exact (Permutation_in y (Permutation_sym (circle_perm ccw order start)) Hy). }
    assert (Hn := next_unrouted_ok N order ccw Hcust routed' (posn t) (posn_lt t)).
    destruct (next_unrouted order ccw len (posn t) (posn t) routed') as (pos' & node'). destruct Hn as (Hp' & Hn).
    destruct node' as [y|]; [destruct Hn as (-> & Hr); rewrite (Hall _ (node_at_in order pos' Hp')) in Hr; discriminate|].
    split; [cbn [sw_routes sw_routed sw_count sw_current]; rewrite <- Et; exact HR|]. cbn [sw_current sw_node sw_complete sr_set add_node].
    split; [intros E; apply app_eq_nil in E; destruct E; discriminate|auto].
  - left. destruct len as [|n] eqn:El; [lia|]. rewrite <- El in *. 
    assert (En : next_unrouted order ccw (S n) (posn t) (posn t) routed' = (posn (S t), Some (nth (S t) circ 0%nat))).
    { cbn [next_unrouted]. change (sw_step ccw (len - 1) (posn t)) with (posn (S t)).
      rewrite (circ_at (S t)) by exact Hmore. rewrite Hm.
      - rewrite (proj2 (mem_false _ _) (fresh (S t) Hmore)). reflexivity.
      - apply (Permutation_in _ (circle_perm ccw order start)), nth_In. rewrite circ_len. exact Hmore. }
    rewrite El in En |- *. rewrite <- El in En |- *. rewrite En.
    split; [exact HR|]. auto.
Qed.

Lemma arcs_nth arcs s t : concat arcs ++ s = firstn t circ -> (t <= len)%nat -> (length (concat arcs) + length s = t)%nat /\
  forall i, (i < length s)%nat -> nth i s 0%nat = nth (length (concat arcs) + i) circ 0%nat.
Proof using Hnd Hcust Hd Hstart.
  intros E Ht. assert (El : (length (concat arcs) + length s = t)%nat).
  { rewrite <- app_length, E. apply firstn_length_le. rewrite circ_len. exact Ht. }
  split; [exact El|]. intros i Hi.
  rewrite <- (nth_firstn' t (length (concat arcs) + i) circ) by lia. rewrite <- E, app_nth2 by lia. f_equal. lia.
Qed.
Lemma firstn_prefix (a b l : list nat) t : a ++ b = firstn t l -> a = firstn (length a) l.
Proof using Hnd Hcust Hd Hstart.
  intros E. rewrite <- (firstn_skipn t l), <- E, <- app_assoc. rewrite firstn_app, Nat.sub_diag, firstn_all. cbn. now rewrite app_nil_r.
Qed.
Lemma nodup_part a s t : a ++ s = firstn t circ -> NoDup s.
Proof using Hnd Hcust Hd Hstart.
  intros E. assert (G := circ_nodup). rewrite <- (firstn_skipn t circ), <- E in G. apply NoDup_app_remove_r, NoDup_app_remove_l in G. exact G.
Qed.
Lemma incl_part a s t : a ++ s = firstn t circ -> incl s order.
Proof using Hnd Hcust Hd Hstart.
  intros E x Hx. apply (Permutation_in x (circle_perm ccw order start)). rewrite <- (firstn_skipn t circ), <- E. apply in_or_app. left. apply in_or_app. now right.
Qed.
Lemma skipn_at t : (t < len)%nat -> skipn t circ = nth t circ 0%nat :: skipn (S t) circ.
Proof using Hnd Hcust Hd Hstart.
  intros H. rewrite <- circ_len in H. revert H. generalize circ. clear. intros l. revert t.
  induction l as [|a l IH]; intros [|t] H; cbn in *; try lia; [reflexivity|]. apply IH. lia.
Qed.

Lemma sweeping_step fuel st arcs t x : sweeping st arcs t -> sw_iter ceps seps D d C L f order ccw false fuel st = Some x ->
  exists st', x = inr st' /\ exists arcs' t', sweeping st' arcs' t' \/ at_end st' arcs'.
Proof using Hf Halone Hnd Hcust Hd Hstart.
  intros (HR & Ht & Hpos & Hnode & Hcomp). assert (HR0 := HR). destruct HR as [R1 R2 R3 R4 R5 R6 R7].
  unfold sw_iter. rewrite Hnode, Hcomp, Hpos. set (cur := sw_current st) in *. set (n := nth t circ 0%nat) in *. cbn [orb].
  destruct (arcs_nth arcs (sr_set cur) t R2 ltac:(lia)) as (Hlen & Hnth).
  assert (HnO : In n order). { apply (Permutation_in n (circle_perm ccw order start)), nth_In. rewrite circ_len. exact Ht. }
  rewrite (carries_exceeds ceps d C cur _ R6).
  match goal with |- context [let '(bound1, complete2) := ?m in _] => set (second := m) end.
  destruct second as (bound1, complete2) eqn:E2. unfold second in E2. clear second. cbn [andb orb]. rewrite Bool.orb_false_r.
  assert (Hwhy : if complete2 then ~ fit (sr_set cur ++ [n]) else within C ceps (demand d (sr_set cur) + d n)).
  { destruct (exceeds C ceps (demand d (sr_set cur) + d n)) eqn:EC; cbn [negb andb] in E2.
    - injection E2 as _ <-. intros (F1 & _). rewrite demand_snoc in F1. apply exceeds_true in EC. easy.
    - apply exceeds_within in EC. destruct (exceeds L 0 (sw_bound st)).
      + injection E2 as _ <-. destruct (exceeds L seps _) eqn:EL; [|exact EC]. intros (_ & F2). apply exceeds_true in EL. easy.
      + injection E2 as _ <-. exact EC. }
  destruct complete2.
  2:{ intros E. injection E as <-. eexists. split; [reflexivity|].
      destruct (rule_proceed (sw_routes st) arcs (sw_routed st) (sw_count st) t cur bound1 Ht HR0 Hwhy) as [G|G]; [exists arcs, (S t); left; exact G|exists arcs, 0%nat; right; exact G]. }
  (* a closed route is not empty *)
  assert (Hne : sr_set cur <> []).
  { intros Hs. rewrite Hs in Hwhy. cbn [app] in Hwhy. apply Hwhy. destruct (Halone n (Hcust n HnO)) as (A1 & A2).
    split; [exact A1|]. destruct (Hf [n]) as (l' & El & Hl); [easy|repeat constructor; easy|intros j [<-|[]]; apply Hcust, HnO|].
    rewrite El. cbn [snd]. apply Permutation_sym, Permutation_length_1_inv in Hl. subst l'. exact A2. }
  assert (Hnds := nodup_part _ _ _ R2). assert (His := incl_part _ _ _ R2).
  destruct (routed_by_f_ok N D f order Hf Hcust cur Hne Hnds His) as (T1 & T2 & T3 & T4 & T5).
  set (cur1 := routed_by_f f cur) in *.
  assert (Hcar : carries d C cur1). { intros HC. rewrite T2, T3. apply R6, HC. }
  match goal with |- context [match ?m with Some _ => _ | None => None end] => destruct m as [[[[[[pos node] cur2] routed] complete3] inter2]|] eqn:EE end; [|discriminate].
  assert (HE : complete3 = true /\ exists gone, sr_set cur = sr_set cur2 ++ gone /\ sr_set cur2 <> [] /\
     pos = posn (length (concat arcs) + length (sr_set cur2)) /\ node = Some (nth (length (concat arcs) + length (sr_set cur2)) circ 0%nat) /\
     sr_route cur2 = fst (f (0%nat :: sr_set cur2)) /\ within L seps (snd (f (0%nat :: sr_set cur2))) /\
     ~ fit (sr_set cur2 ++ [nth (length (concat arcs) + length (sr_set cur2)) circ 0%nat]) /\
     (forall x, routed x = sw_routed st x && negb (mem x gone))).
  { destruct (is_set L) eqn:HL.
    - destruct (ensure_L seps d C L f order ccw fuel (posn t) (posn t) cur1 (sw_routed st)) as [[[p r] routed1]|] eqn:EL; [|discriminate].
      apply (ensure_prefix fuel (length (concat arcs))) in EL; rewrite ?T2; try assumption; [|lia|now rewrite Hlen].
      destruct EL as (gone & G1 & G2 & G3 & G4 & G5 & G6 & G7 & G8 & G9 & G10). rewrite T2 in G1.
      assert (Hnx : forall y g, gone = y :: g -> y = nth (length (concat arcs) + length (sr_set r)) circ 0%nat).
      { intros y g ->. rewrite <- (Hnth (length (sr_set r))) by (rewrite G1, app_length; cbn; lia). rewrite G1, app_nth2, Nat.sub_diag by lia. reflexivity. }
      assert (Hsame : gone = [] -> (length (concat arcs) + length (sr_set r))%nat = t).
      { intros ->. rewrite app_nil_r in G1. rewrite <- G1. exact Hlen. }
      assert (Hnf : ~ fit (sr_set r ++ [nth (length (concat arcs) + length (sr_set r)) circ 0%nat])).
      { destruct gone as [|y g]; [rewrite (Hsame eq_refl); rewrite app_nil_r in G1; rewrite <- G1; exact Hwhy|]. rewrite <- (Hnx y g eq_refl). exact G9. }
      assert (Hlt : (length (concat arcs) + length (sr_set r) <= t)%nat) by (rewrite <- Hlen, G1, app_length; lia).
      destruct (Nat.eqb_spec p (posn t)) as [Ep|Ep]; injection EE as <- <- <- <- <- <-.
      + assert (Heq : (length (concat arcs) + length (sr_set r))%nat = t).
        { assert (E : node_at order p = node_at order (posn t)) by now rewrite Ep. rewrite G2, !circ_at in E by lia.
          apply (proj1 (NoDup_nth circ 0%nat) circ_nodup) in E; [exact E| |]; rewrite circ_len; lia. }
        split; [reflexivity|]. exists gone. split; [exact G1|]. split; [exact G3|]. rewrite Heq in *. split; [reflexivity|]. split; [reflexivity|].
        split; [exact G7|]. split; [now rewrite <- G6|]. split; [exact Hnf|exact G10].
      + split; [reflexivity|]. exists gone. split; [exact G1|]. split; [exact G3|]. split; [exact G2|]. split; [rewrite G2, circ_at by lia; reflexivity|].
        split; [exact G7|]. split; [now rewrite <- G6|]. split; [exact Hnf|exact G10].
    - injection EE as <- <- <- <- <- <-. split; [reflexivity|]. exists []. rewrite T2, app_nil_r, Hlen. split; [reflexivity|]. split; [exact Hne|].
      split; [reflexivity|]. split; [reflexivity|]. split; [exact T5|]. split; [apply unset_within, HL|]. split; [exact Hwhy|].
      intros y. cbn. now rewrite Bool.andb_true_r. }
  clear EE. destruct HE as (-> & gone & F1 & F2 & F3 & F4 & F5 & F6 & F7 & F8).
  assert (Hl2 : (0 < length (sr_set cur2))%nat) by (destruct (sr_set cur2); [easy|cbn; lia]).
  destruct (Nat.ltb_spec 0 (length (sr_set cur2))); [|lia].
  assert (Hcl : length (sr_set cur) = (length (sr_set cur2) + length gone)%nat) by (rewrite F1, app_length; lia).
  set (t2 := (length (concat arcs) + length (sr_set cur2))%nat) in *. assert (Ht2 : (t2 <= t)%nat) by lia.
  rewrite R5. fold t2. destruct (Nat.leb_spec len t2); [lia|].
  intros E. injection E as <-. eexists. split; [reflexivity|]. rewrite F3, F4.
  assert (Hpre : concat arcs ++ sr_set cur2 = firstn t2 circ).
  { unfold t2. rewrite <- app_length. apply (firstn_prefix (concat arcs ++ sr_set cur2) gone circ t). rewrite <- app_assoc, <- F1. exact R2. }
  assert (HfitA : fit (sr_set cur2)).
  { split; [|exact F6]. refine (within_less _ _ _ _ (demand_incl d _ _ _ Hnds _ _) (R7 Hne)).
    - rewrite F1 in Hnds. apply NoDup_app_remove_r in Hnds. exact Hnds.
    - rewrite F1. intros y Hy. apply in_or_app. now left.
    - intros y Hy. apply Hd, Hcust, His, Hy. }
  destruct (rule_proceed (sw_routes st ++ [cur2]) (arcs ++ [sr_set cur2]) routed t2 t2 sr_new 0) as [G|G].
  - lia.
  - constructor; cbn [sr_set sr_new]; rewrite ?app_nil_r.
    + apply forall2_snoc; [exact R1|exact F5].
    + rewrite concat_snoc. exact Hpre.
    + rewrite concat_snoc, app_length. fold t2. rewrite skipn_at by lia. apply cut_snoc; [|exact F2|exact HfitA|exact F7].
      rewrite <- skipn_at by lia. replace (sr_set cur2 ++ skipn t2 circ) with (skipn (length (concat arcs)) circ); [exact R3|].
      apply app_inv_head with (concat arcs). rewrite app_assoc, Hpre, firstn_skipn. 
      rewrite (firstn_prefix (concat arcs) (sr_set cur) circ t R2) at 1. apply firstn_skipn.
    + intros y Hy. rewrite F8, (R4 y Hy), <- R2, F1, <- Hpre, !mem_app.
      assert (Hn2 : NoDup ((concat arcs ++ sr_set cur2) ++ gone)). { rewrite <- app_assoc, <- F1, R2. assert (G := circ_nodup). rewrite <- (firstn_skipn t circ) in G. apply NoDup_app_remove_r in G. exact G. }
      destruct (mem y gone) eqn:Eg; cbn [negb]; [|now rewrite Bool.andb_true_r, Bool.orb_false_r].
      rewrite Bool.andb_false_r, <- mem_app. symmetry. apply mem_false. intros Hin. apply mem_in in Eg.
      clear - Hn2 Eg Hin. induction (concat arcs ++ sr_set cur2) as [|a l IH]; [easy|]. cbn in Hn2. inversion Hn2; subst. destruct Hin as [->|Hin].
      * apply H1. apply in_or_app. now right.
      * apply IH; assumption.
    + rewrite concat_snoc, app_length. reflexivity.
    + intros _. reflexivity.
    + easy.
  - cbn [sr_set sr_new]. set (y := nth t2 circ 0%nat).
    assert (HyO : In y order). { apply (Permutation_in y (circle_perm ccw order start)), nth_In. rewrite circ_len. lia. }
    destruct (Halone y (Hcust y HyO)) as (A1 & _). rewrite demand_cons, Z.add_comm in A1. exact A1.
  - exists (arcs ++ [sr_set cur2]), (S t2). left. exact G.
  - exists (arcs ++ [sr_set cur2]), 0%nat. right. exact G.
Qed.

(** Finished routes stay *)
Lemma proceed_routes pos node routes routed count r bound : sw_routes (sw_proceed D d C L order ccw pos node routes routed count r bound) = routes.
Proof using Type.
  unfold sw_proceed. destruct (match node with Some _ => _ | None => _ end) as [[r' routed'] bound'].
  destruct (next_unrouted order ccw len pos pos routed'). reflexivity.
Qed.
Lemma iter_prefix fuel st x : sw_iter ceps seps D d C L f order ccw false fuel st = Some x ->
  exists more, match x with inl routes => routes | inr st' => sw_routes st' end = sw_routes st ++ more.
Proof using Type.
  unfold sw_iter. match goal with |- context [let '(b, c) := ?m in _] => destruct m as (bound1, complete2) end. cbn [andb]. rewrite Bool.orb_false_r.
  destruct complete2.
  2:{ intros E. injection E as <-. exists []. rewrite proceed_routes. now rewrite app_nil_r. }
  match goal with |- context [match ?m with Some _ => _ | None => None end] => destruct m as [[[[[[pos node] cur2] routed] complete3] inter2]|] eqn:EE end; [|discriminate].
  assert (E3 : complete3 = true /\ inter2 = false).
  { destruct (is_set L); [|injection EE as <- <- <- <- <- <-; auto].
    destruct (ensure_L _ _ _ _ _ _ _ _ _ _ _ _) as [[[p r] routed1]|]; [|discriminate]. destruct (Nat.eqb p (sw_pos st)); injection EE as <- <- <- <- <- <-; auto. }
  destruct E3 as (-> & ->).
  destruct (0 <? length (sr_set cur2))%nat; (destruct (len <=? _)%nat; intros E; injection E as <-; [|rewrite proceed_routes]).
  - exists [cur2]. reflexivity.
  - exists [cur2]. reflexivity.
  - exists []. now rewrite app_nil_r.
  - exists []. now rewrite app_nil_r.
Qed.
Lemma loop_prefix fuelL : forall fuel st routes, sw_loop ceps seps D d C L f order ccw false fuelL fuel st = Some routes -> exists more, routes = sw_routes st ++ more.
Proof using Type.
  induction fuel as [|fuel IH]; intros st routes H; [discriminate|]. cbn [sw_loop] in H.
  destruct (sw_iter _ _ _ _ _ _ _ _ _ _ _ _) as [x|] eqn:E; [|discriminate]. apply iter_prefix in E. destruct E as (more & E). destruct x as [rts|st'].
  - injection H as <-. exists more. exact E.
  - destruct (IH st' routes H) as (more2 & ->). exists (more ++ more2). rewrite E, app_assoc. reflexivity.
Qed.

Lemma end_step fuel st arcs x : at_end st arcs -> sw_iter ceps seps D d C L f order ccw false fuel st = Some x ->
  within L seps (snd (f (0%nat :: sr_set (sw_current st)))) -> x = inl (sw_routes st ++ [routed_by_f f (sw_current st)]).
Proof using Hf Halone Hnd Hcust Hd Hstart.
  intros ([R1 R2 R3 R4 R5 R6 R7] & Hne & Hnode & Hcomp) H HL. revert H. unfold sw_iter. rewrite Hnode, Hcomp. cbn [orb andb].
  destruct (arcs_nth arcs _ len R2 (le_n _)) as (Hlen & _).
  destruct (routed_by_f_ok N D f order Hf Hcust _ Hne (nodup_part _ _ _ R2) (incl_part _ _ _ R2)) as (T1 & T2 & T3 & T4 & T5).
  set (cur1 := routed_by_f f (sw_current st)) in *.
  assert (EE : forall p fp routed, ensure_L seps d C L f order ccw fuel p fp cur1 routed = Some (fp, cur1, routed)).
  { intros p fp routed. destruct fuel; cbn [ensure_L]; rewrite T4, (proj2 (exceeds_within _ _ _) HL); reflexivity. }
  rewrite EE, Nat.eqb_refl. 
  destruct (is_set L); cbn [orb andb]; rewrite T2; (destruct (Nat.ltb_spec 0 (length (sr_set (sw_current st)))) as [G|G]; [|destruct (sr_set (sw_current st)); [easy|cbn in G; lia]]);
    rewrite R5, Hlen, Nat.leb_refl; intros E; now injection E as <-.
Qed.

Definition by_rule (routes : list swroute) : Prop :=
  exists arcs final pre more, circ = concat arcs ++ final /\ final <> [] /\ cut_by_rule fit final arcs /\ within C ceps (demand d final) /\
    routes = pre ++ more /\ Forall2 (fun x a => sr_route x = fst (f (0%nat :: a))) pre arcs /\
    (within L seps (snd (f (0%nat :: final))) -> exists r, more = [r] /\ sr_route r = fst (f (0%nat :: final))).

Lemma rule_loop fuelL : forall fuel st arcs t routes, sweeping st arcs t \/ at_end st arcs ->
  sw_loop ceps seps D d C L f order ccw false fuelL fuel st = Some routes -> by_rule routes.
Proof using Hf Halone Hnd Hcust Hd Hstart.
  induction fuel as [|fuel IH]; intros st arcs t routes Hst H; [discriminate|]. destruct Hst as [Hst|Hst].
  - cbn [sw_loop] in H. destruct (sw_iter _ _ _ _ _ _ _ _ _ _ _ _) as [x|] eqn:E; [|discriminate].
    destruct (sweeping_step _ _ _ _ _ Hst E) as (st' & -> & arcs' & t' & Hst'). exact (IH st' arcs' t' routes Hst' H).
  - destruct (loop_prefix _ _ _ _ H) as (more & Em). assert (Hst0 := Hst). destruct Hst as ([R1 R2 R3 R4 R5 R6 R7] & Hne & Hnode & Hcomp).
    exists arcs, (sr_set (sw_current st)), (sw_routes st), more.
    assert (Ec : circ = concat arcs ++ sr_set (sw_current st)). { rewrite R2, <- circ_len, firstn_all. reflexivity. }
    split; [exact Ec|]. split; [exact Hne|]. split.
    { replace (skipn (length (concat arcs)) circ) with (sr_set (sw_current st)) in R3; [exact R3|].
      rewrite Ec, skipn_app, Nat.sub_diag, skipn_all. reflexivity. }
    split; [exact (R7 Hne)|]. split; [exact Em|]. split; [exact R1|].
    intros HL. cbn [sw_loop] in H. destruct (sw_iter _ _ _ _ _ _ _ _ _ _ _ _) as [x|] eqn:E; [|discriminate].
    rewrite (end_step _ _ _ _ Hst0 E HL) in H. injection H as H. exists (routed_by_f f (sw_current st)).
    split; [rewrite <- H in Em; apply app_inv_head in Em; auto|].
    apply (routed_by_f_ok N D f order Hf Hcust _ Hne (nodup_part _ _ _ R2) (incl_part _ _ _ R2)).
Qed.

Lemma rule_sweep fuel routes : do_one_sweep ceps seps D d C L f order ccw false start fuel = Some (Some routes) -> by_rule routes.
Proof using Hf Halone Hnd Hcust Hd Hstart.
  unfold do_one_sweep. destruct (nth_error order start) as [n|] eqn:E; [|discriminate].
  destruct (sw_loop _ _ _ _ _ _ _ _ _ _ _ _ _) as [r|] eqn:El; [|discriminate]. intros H. injection H as ->.
  apply (rule_loop _ _ _ [] 0%nat) in El; [exact El|]. left.
  split; [|split; [lia|split; [reflexivity|split; [|reflexivity]]]].
  - constructor; cbn [sw_routes sw_routed sw_count sw_current concat sr_set sr_new app length skipn firstn].
    + constructor.
    + reflexivity.
    + constructor.
    + intros x Hx. apply Hcust in Hx. cbn. destruct x; [lia|reflexivity].
    + reflexivity.
    + intros _. reflexivity.
    + easy.
  - cbn [sw_node]. f_equal. rewrite <- circ_at by lia. cbn. unfold node_at. symmetry. exact (nth_error_nth order start 0%nat E).
Qed.
End Rule.
