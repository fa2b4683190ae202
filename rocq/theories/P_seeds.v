(** Proofs about the choice of seed customers by demand. *)
From Coq Require Import ZArith List Bool Permutation ZifyBool ZifyNat Lia.
From Verif Require Import Spec PyBase P_base M_seeds Spec_seeds.
Import ListNotations.
Open Scope Z_scope.

Lemma argmax_from_spec f : forall l i best v whole,
  (forall k, nth_error l k = nth_error whole (i + k)) ->
  (best < i)%nat -> (i <= length whole)%nat ->
  nth_error whole best = Some v ->
  (forall k x, (k < i)%nat -> nth_error whole k = Some x -> x <= v) ->
  f = argmax_from i best v l ->
  exists w, nth_error whole f = Some w /\
    forall k x, nth_error whole k = Some x -> x <= w.
Proof.
  induction l as [|y l IH]; intros i best v whole Hl Hb Hi Hv Hmax Hf; cbn in Hf.
  - subst f. exists v. split; [exact Hv|].
    intros k x Hk. destruct (Nat.lt_ge_cases k i) as [H|H]; [eauto|].
    specialize (Hl (k - i)%nat). replace (i + (k - i))%nat with k in Hl by lia.
    rewrite Hk in Hl. destruct (k - i)%nat; discriminate.
  - assert (Hy : nth_error whole i = Some y).
    { specialize (Hl O). rewrite Nat.add_0_r in Hl. cbn in Hl. congruence. }
    assert (Hi' : (S i <= length whole)%nat).
    { assert (nth_error whole i <> None) by congruence.
      apply nth_error_Some in H. lia. }
    assert (Hl' : forall k, nth_error l k = nth_error whole (S i + k)).
    { intros k. specialize (Hl (S k)). cbn [nth_error] in Hl. rewrite Hl. f_equal. lia. }
    destruct (v <? y) eqn:E.
    + apply (IH (S i) i y whole Hl'); auto; try lia.
      intros k x Hk Hx. destruct (Nat.eq_dec k i) as [->|]; [rewrite Hy in Hx; inversion Hx; lia|].
      assert (x <= v) by (apply (Hmax k); [lia|exact Hx]). lia.
    + apply (IH (S i) best v whole Hl'); auto; try lia.
      intros k x Hk Hx. destruct (Nat.eq_dec k i) as [->|]; [rewrite Hy in Hx; inversion Hx; lia|].
      apply (Hmax k); [lia|exact Hx].
Qed.

Lemma argmax_spec : forall l, l <> [] ->
  exists k w, argmax l = Some k /\ nth_error l k = Some w /\ forall x, In x l -> x <= w.
Proof.
  intros [|y l] H; [congruence|]. cbn [argmax].
  destruct (argmax_from_spec (argmax_from 1 0 y l) l 1 0 y (y :: l)) as [w [H1 H2]].
  - intros k; reflexivity.
  - lia.
  - cbn; lia.
  - reflexivity.
  - intros k x Hk Hx. assert (k = 0%nat) by lia. subst. cbn in Hx. inversion Hx; lia.
  - reflexivity.
  - exists (argmax_from 1 0 y l), w. split; [reflexivity|]. split; [exact H1|].
    intros x Hx. apply In_nth_error in Hx. destruct Hx as [k Hk]. eauto.
Qed.

Lemma where_in N m i : In i (where_ N m) <-> (i < N)%nat /\ m i = true.
Proof. unfold where_. rewrite filter_In, in_seq. intuition lia. Qed.

Lemma where_nodup N m : NoDup (where_ N m).
Proof. apply NoDup_filter, seq_NoDup. Qed.

Lemma where_ext N m m' : (forall i, (i < N)%nat -> m i = m' i) -> where_ N m = where_ N m'.
Proof.
  intros H. unfold where_. apply filter_ext_in. intros i Hi. apply in_seq in Hi. apply H. lia.
Qed.

Lemma remove_first_notin x l : ~ In x l -> remove_first x l = l.
Proof.
  induction l as [|y l IH]; cbn; intros H; [reflexivity|].
  destruct (Nat.eqb_spec x y); [subst; intuition|]. f_equal. apply IH. intuition.
Qed.

Lemma remove_first_perm x l : In x l -> Permutation l (x :: remove_first x l).
Proof.
  induction l as [|y l IH]; cbn; intros H; [contradiction|].
  destruct (Nat.eqb_spec x y); [subst; reflexivity|].
  destruct H as [H|H]; [congruence|].
  rewrite perm_swap. constructor. auto.
Qed.

Lemma remove_first_filter x (m : mask) : forall l, NoDup l -> m x = true ->
  remove_first x (filter m l) = filter (set_mask m x false) l.
Proof.
  induction l as [|y l IH]; intros Hn Hx; [reflexivity|].
  inversion Hn; subst. cbn [filter]. unfold set_mask at 1.
  destruct (Nat.eqb_spec y x).
  - subst. rewrite Hx. cbn. rewrite Nat.eqb_refl.
    apply filter_ext_in. intros a Ha. unfold set_mask.
    destruct (Nat.eqb_spec a x); [subst; contradiction|reflexivity].
  - destruct (m y) eqn:E.
    + cbn. destruct (Nat.eqb_spec x y); [congruence|]. f_equal. auto.
    + auto.
Qed.

Lemma where_remove N m x : (x < N)%nat -> m x = true ->
  where_ N (set_mask m x false) = remove_first x (where_ N m).
Proof. intros. unfold where_. symmetry. apply remove_first_filter; [apply seq_NoDup|assumption]. Qed.

Lemma selected_value N D d root selected seeds nl j :
  (0 < N)%nat -> (forall i, In i seeds -> (i < N)%nat) ->
  (forall i, (i < N)%nat -> selected i = true <-> i = 0%nat \/ In i seeds) ->
  seed_value N D d root selected (match seeds with [] => true | _ => false end) nl j
  = remoteness D root seeds j * (if nl then d j else 1).
Proof.
  intros HN Hlt Hsel. unfold seed_value, remoteness.
  destruct seeds as [|s seeds].
  - destruct nl; lia.
  - set (l := s :: seeds) in *.
    assert (HP : Permutation (where_ N selected) (nodup Nat.eq_dec (0%nat :: l))).
    { apply NoDup_Permutation; [apply where_nodup|apply NoDup_nodup|].
      intros i. rewrite where_in, nodup_In. cbn [In]. split.
      - intros [Hi Hs]. apply Hsel in Hs; [|exact Hi]. intuition.
      - intros Hi. assert (i < N)%nat by (destruct Hi as [<-|Hi]; [lia|auto]).
        split; [assumption|]. apply Hsel; [assumption|]. intuition. }
    rewrite (sumZ_perm _ _ (Permutation_map (fun i => root (D i j)) HP)).
    destruct nl; lia.
Qed.

Section LOOP.
Variables (N : nat) (D : matrix) (d : nat -> Z) (root : Z -> Z) (large : mask).
Hypothesis HN : (0 < N)%nat.

(** the facts about the seeds so far *)
Definition seeds_ok (seeds : list nat) (selected : mask) : Prop :=
  NoDup seeds /\ ~ In 0%nat seeds /\ (forall i, In i seeds -> (i < N)%nat) /\
  (forall i, (i < N)%nat -> selected i = true <-> i = 0%nat \/ In i seeds).

Lemma seeds_ok_add seeds selected i : seeds_ok seeds selected ->
  ~ In i seeds -> (1 <= i < N)%nat -> seeds_ok (seeds ++ [i]) (set_mask selected i true).
Proof.
  intros (H1 & H2 & H3 & H4) Hi HiN. repeat split.
  - apply (Permutation_NoDup (l := i :: seeds)); [apply Permutation_cons_append|]. constructor; assumption.
  - rewrite in_app_iff. cbn. intuition lia.
  - intros j. rewrite in_app_iff. cbn. intros [Hj|[<-|[]]]; [auto|lia].
  - unfold set_mask. destruct (Nat.eqb_spec i0 i) as [->|Hne].
    + intros _. right. rewrite in_app_iff. cbn. auto.
    + intros Hs. apply H4 in Hs; [|assumption]. rewrite in_app_iff. intuition.
  - intros Hj. unfold set_mask. destruct (Nat.eqb_spec i0 i) as [->|Hne]; [reflexivity|].
    apply H4; [assumption|]. rewrite in_app_iff in Hj. cbn in Hj. intuition congruence.
Qed.

(** Any order of the candidates gives distinct seeds among them *)
Lemma seed_loop_distinct : forall n seeds selected cand idxs nl,
  seeds_ok seeds selected ->
  Permutation idxs (where_ N cand) -> (n <= length idxs)%nat ->
  ~ In 0%nat idxs -> (forall i, In i idxs -> ~ In i seeds) ->
  exists picks, seed_loop N D d root large n seeds selected cand idxs nl = Seeds (seeds ++ picks)
    /\ length picks = n /\ NoDup (seeds ++ picks) /\ (forall i, In i picks -> In i idxs).
Proof.
  induction n as [|n IH]; intros seeds selected cand idxs nl Hok HP Hn H0 Hd.
  - exists []. rewrite app_nil_r. destruct Hok. repeat split; auto. intros i [].
  - destruct idxs as [|c idxs0] eqn:Ei; [cbn in Hn; lia|]. rewrite <- Ei in *.
    cbn [seed_loop].
    replace (match idxs with [] => true | _ => false end) with false by (rewrite Ei; reflexivity).
    set (vals := map _ (where_ N cand)).
    assert (Hvl : length vals = length idxs).
    { unfold vals. rewrite map_length. symmetry. apply Permutation_length. exact HP. }
    destruct (argmax_spec vals) as (k & w & Ek & Hk & Hw).
    { intros E. rewrite E in Hvl. rewrite Ei in Hvl. discriminate. }
    rewrite Ek.
    assert (Hkl : (k < length idxs)%nat).
    { rewrite <- Hvl. apply nth_error_Some. congruence. }
    destruct (nth_error idxs k) as [i|] eqn:Ei2; [|apply nth_error_None in Ei2; lia].
    assert (Hin : In i idxs) by (apply nth_error_In in Ei2; exact Ei2).
    assert (HiN : (1 <= i < N)%nat).
    { pose proof (Permutation_in _ HP Hin) as H. apply where_in in H.
      assert (i <> 0%nat) by (intros ->; contradiction). lia. }
    assert (Hci : cand i = true).
    { pose proof (Permutation_in _ HP Hin) as H. apply where_in in H. tauto. }
    assert (Hidx_nd : NoDup idxs).
    { apply (Permutation_NoDup (Permutation_sym HP)). apply where_nodup. }
    pose proof (remove_first_perm i idxs Hin) as HPr.
    assert (Hnr : NoDup (i :: remove_first i idxs)) by (apply (Permutation_NoDup HPr Hidx_nd)).
    inversion Hnr as [|? ? Hnotin Hnd']; subst x l.
    destruct (IH (seeds ++ [i]) (set_mask selected i true) (set_mask cand i false)
                (remove_first i idxs) nl) as (picks & E & Hl & Hnd & Hin').
    + apply seeds_ok_add; auto.
    + rewrite where_remove by (lia || assumption).
      apply (Permutation_cons_inv (a := i)).
      rewrite <- HPr. rewrite HP. apply remove_first_perm.
      apply (Permutation_in _ HP Hin).
    + apply Permutation_length in HPr. cbn in HPr. lia.
    + intros H. apply H0. apply (Permutation_in _ (Permutation_sym HPr)). right. exact H.
    + intros j Hj Hs. rewrite in_app_iff in Hs. cbn in Hs.
      destruct Hs as [Hs|[<-|[]]]; [|contradiction].
      apply (Hd j); [|exact Hs]. apply (Permutation_in _ (Permutation_sym HPr)). right. exact Hj.
    + exists (i :: picks). rewrite <- app_assoc in E, Hnd. cbn [app] in E, Hnd.
      split; [exact E|]. split; [cbn; lia|]. split; [exact Hnd|].
      intros j [<-|Hj]; [exact Hin|].
      apply (Permutation_in _ (Permutation_sym HPr)). right. auto.
Qed.

(** When the list of candidates is in the order of the mask, each seed is the
    most remote candidate *)
Lemma seed_loop_remote (P : nat -> Prop) : forall n seeds selected cand nl,
  seeds_ok seeds selected ->
  (n <= length (where_ N cand))%nat ->
  ~ In 0%nat (where_ N cand) ->
  (forall i, In i (where_ N cand) <-> P i /\ ~ In i seeds) ->
  exists picks,
    seed_loop N D d root large n seeds selected cand (where_ N cand) nl = Seeds (seeds ++ picks)
    /\ length picks = n
    /\ most_remote_first D root (fun j => if nl then d j else 1) P seeds picks.
Proof.
  induction n as [|n IH]; intros seeds selected cand nl Hok Hn H0 HPc.
  - exists []. rewrite app_nil_r. repeat split; auto. constructor.
  - destruct (where_ N cand) as [|c idxs0] eqn:Ei; [cbn in Hn; lia|]. rewrite <- Ei in *.
    cbn [seed_loop].
    replace (match where_ N cand with [] => true | _ => false end) with false by (rewrite Ei; reflexivity).
    set (vals := map _ (where_ N cand)).
    destruct (argmax_spec vals) as (k & w & Ek & Hk & Hw).
    { unfold vals. rewrite Ei. discriminate. }
    rewrite Ek.
    unfold vals in Hk. rewrite nth_error_map in Hk.
    destruct (nth_error (where_ N cand) k) as [i|] eqn:Ei2; [|discriminate].
    cbn [option_map] in Hk. inversion Hk as [Hwv]. clear Hk.
    assert (Hin : In i (where_ N cand)) by (apply nth_error_In in Ei2; exact Ei2).
    pose proof Hin as Hin2. apply where_in in Hin2. destruct Hin2 as [HiN Hci].
    assert (Hi1 : (1 <= i < N)%nat) by (assert (i <> 0%nat) by (intros ->; contradiction); lia).
    destruct (proj1 (HPc i) Hin) as [HPi Hsi].
    destruct (IH (seeds ++ [i]) (set_mask selected i true) (set_mask cand i false) nl)
      as (picks & E & Hl & Hm).
    + apply seeds_ok_add; auto.
    + rewrite where_remove by assumption.
      pose proof (remove_first_perm i _ Hin) as HPr. apply Permutation_length in HPr. cbn in HPr. lia.
    + intros H. apply where_in in H. unfold set_mask in H.
      destruct H as [H1 H2]. apply H0. apply where_in. split; [exact H1|].
      destruct (Nat.eqb 0 i); [discriminate|exact H2].
    + intros j. rewrite where_in. unfold set_mask. rewrite in_app_iff. cbn [In].
      specialize (HPc j). rewrite where_in in HPc.
      destruct (Nat.eqb_spec j i) as [->|Hne].
      * split; [intros [_ H]; discriminate|]. intros [_ H]. exfalso. apply H. auto.
      * split; [intros H; apply HPc in H; intuition|].
        intros [H1 H2]. apply HPc. intuition.
    + exists (i :: picks). rewrite where_remove in E by assumption.
      rewrite <- app_assoc in E. cbn [app] in E.
      split; [exact E|]. split; [cbn; lia|].
      destruct Hok as (K1 & K2 & K3 & K4).
      constructor; auto.
      intros j HPj Hsj.
      assert (Hj : In j (where_ N cand)) by (apply HPc; auto).
      rewrite <- (selected_value N D d root selected seeds nl j) by assumption.
      rewrite <- (selected_value N D d root selected seeds nl i) by assumption.
      rewrite Hwv. apply Hw. unfold vals.
      apply (in_map (seed_value N D d root selected (match seeds with [] => true | _ => false end) nl)).
      exact Hj.
Qed.
End LOOP.

Lemma fold_select N : forall l m, (forall i, In i l -> (i < N)%nat) ->
  forall i, fold_left (fun m i => set_mask m i true) l m i = true <-> m i = true \/ In i l.
Proof.
  induction l as [|x l IH]; intros m H i; cbn [fold_left In]; [tauto|].
  rewrite IH by (intros; apply H; right; assumption).
  unfold set_mask. destruct (Nat.eqb_spec i x); subst; intuition.
Qed.

Lemma start_ok N l : (0 < N)%nat -> NoDup l -> ~ In 0%nat l -> (forall i, In i l -> (i < N)%nat) ->
  seeds_ok N l (fold_left (fun m i => set_mask m i true) l (fun i => Nat.eqb i 0)).
Proof.
  intros HN H1 H2 H3. repeat split; auto.
  - intros Hs. apply (fold_select N) in Hs; [|assumption]. destruct Hs as [Hs|Hs]; [left; lia|auto].
  - intros Hi. apply (fold_select N); [assumption|]. destruct Hi as [->|Hi]; auto.
Qed.

(** the refilled candidates are as many as the customers that are not large *)
Lemma split_count N (m : mask) : m 0%nat = false -> (0 < N)%nat ->
  (length (where_ N m) + length (where_ N (set_mask (fun i => negb (m i)) 0 false)) = N - 1)%nat.
Proof.
  intros H0 HN. unfold where_. destruct N as [|n]; [lia|]. cbn [seq filter].
  rewrite H0. unfold set_mask at 1. rewrite Nat.eqb_refl.
  replace (filter (set_mask (fun i => negb (m i)) 0 false) (seq 1 n))
    with (filter (fun i => negb (m i)) (seq 1 n)).
  - replace (S n - 1)%nat with (length (seq 1 n)) by (rewrite seq_length; lia).
    generalize (seq 1 n) as l. induction l as [|x l IH]; [reflexivity|].
    cbn. destruct (m x); cbn; lia.
  - apply filter_ext_in. intros i Hi. apply in_seq in Hi. unfold set_mask.
    destruct (Nat.eqb_spec i 0); [lia|reflexivity].
Qed.

(** One refill: the loop that starts without candidates *)
Lemma refill_step N D d root large n seeds selected cand nl :
  where_ N (set_mask (fun i => negb (large i)) 0 false) <> [] ->
  seed_loop N D d root large n seeds selected cand [] nl =
  match n with
  | O => Seeds seeds
  | _ => seed_loop N D d root large n seeds selected
           (set_mask (fun i => negb (large i)) 0 false)
           (where_ N (set_mask (fun i => negb (large i)) 0 false)) true
  end.
Proof.
  intros H. destruct n as [|n]; [reflexivity|]. cbn [seed_loop].
  destruct (where_ N (set_mask (fun i => negb (large i)) 0 false)) as [|c l] eqn:E; [congruence|].
  rewrite !E. reflexivity.
Qed.

Lemma large_in N d C i : In i (where_ N (fun i => C <? 2 * d i)) <-> (i < N)%nat /\ over_half d C i.
Proof. rewrite where_in. unfold over_half. intuition lia. Qed.

Lemma rest_in N (m : mask) i :
  In i (where_ N (set_mask (fun i => negb (m i)) 0 false)) <-> customer N i /\ m i = false.
Proof.
  rewrite where_in. unfold set_mask, customer. destruct (Nat.eqb_spec i 0); subst.
  - split; [intros [_ H]; discriminate|lia].
  - rewrite negb_true_iff. intuition lia.
Qed.

Lemma first_trial_remote N D d root C K :
  2 * d 0%nat <= C -> (K < N)%nat ->
  let big := where_ N (fun i => C <? 2 * d i) in
  ((length big <= K)%nat /\
   exists picks, large_demand_seeds N D d root C K 0 = Seeds (big ++ picks)
     /\ length (big ++ picks) = K
     /\ most_remote_first D root d (fun i => customer N i /\ ~ over_half d C i) big picks)
  \/
  ((K < length big)%nat /\
   exists picks, large_demand_seeds N D d root C K 0 = Seeds picks
     /\ length picks = K
     /\ most_remote_first D root (fun _ => 1) (fun i => customer N i /\ over_half d C i) [] picks).
Proof.
  intros Hd0 HK big.
  assert (Hb0 : ~ In 0%nat big).
  { unfold big. rewrite large_in. unfold over_half. lia. }
  assert (Hbn : NoDup big) by apply where_nodup.
  assert (HbN : forall i, In i big -> (i < N)%nat) by (intros i Hi; apply large_in in Hi; tauto).
  unfold large_demand_seeds. cbn [seed_candidates]. fold big.
  destruct (Nat.leb_spec (length big) K) as [Hle|Hgt].
  - left. split; [exact Hle|].
    pose proof (split_count N (fun i => C <? 2 * d i)) as Hc.
    cbv beta in Hc. fold big in Hc.
    specialize (Hc ltac:(lia) ltac:(lia)).
    destruct (K - length big)%nat as [|n] eqn:En.
    + exists []. cbn [seed_loop]. rewrite app_nil_r. split; [reflexivity|]. split; [lia|constructor].
    + rewrite refill_step by (intros E; rewrite E in Hc; cbn in Hc; lia).
      destruct (seed_loop_remote N D d root (fun i => C <? 2 * d i) ltac:(lia)
                  (fun i => customer N i /\ ~ over_half d C i)
                  (S n) big (fold_left (fun m i => set_mask m i true) big (fun i => Nat.eqb i 0))
                  (set_mask (fun i => negb (C <? 2 * d i)) 0 false) true) as (picks & E & Hl & Hm).
      * apply start_ok; auto; lia.
      * lia.
      * intros H. apply (rest_in N (fun i => C <? 2 * d i)) in H. destruct H as [[H _] _]. lia.
      * intros i. rewrite (rest_in N (fun i => C <? 2 * d i)). unfold big. rewrite large_in.
        unfold over_half, customer. lia.
      * exists picks. split; [exact E|]. split; [rewrite app_length; lia|exact Hm].
  - right. split; [exact Hgt|].
    destruct (seed_loop_remote N D d root (fun i => C <? 2 * d i) ltac:(lia)
                (fun i => customer N i /\ over_half d C i)
                K [] (fun i => Nat.eqb i 0) (fun i => C <? 2 * d i) false) as (picks & E & Hl & Hm).
    + apply (start_ok N []); [lia|constructor|intros []|intros x []].
    + fold big. lia.
    + exact Hb0.
    + intros i. rewrite large_in. unfold customer. split.
      * intros [H1 H2]. repeat split; auto. unfold over_half in H2.
        destruct i; [unfold over_half in *; lia|lia].
      * intros [[[H1 H2] H3] _]. auto.
    + exists picks. split; [exact E|]. split; [exact Hl|exact Hm].
Qed.

(** picking only takes new nodes that qualify *)
Lemma most_remote_sound D root w P : forall seeds picks,
  most_remote_first D root w P seeds picks -> NoDup seeds ->
  NoDup (seeds ++ picks) /\ Forall P picks.
Proof.
  induction 1 as [seeds|seeds i picks HP Hi Hmax Hm IH]; intros Hn.
  - rewrite app_nil_r. auto.
  - destruct IH as [H1 H2].
    + apply (Permutation_NoDup (l := i :: seeds)); [apply Permutation_cons_append|constructor; assumption].
    + rewrite <- app_assoc in H1. split; [exact H1|constructor; assumption].
Qed.

Lemma first_trial_seeds N D d root C K :
  2 * d 0%nat <= C -> (K < N)%nat ->
  exists s, large_demand_seeds N D d root C K 0 = Seeds s
    /\ length s = K /\ NoDup s /\ Forall (customer N) s
    /\ ((forall i, customer N i -> over_half d C i -> In i s) \/
        (forall i, In i s -> over_half d C i)).
Proof.
  intros Hd0 HK. destruct (first_trial_remote N D d root C K Hd0 HK) as [[Hl (p & E & Hlen & Hm)]|[Hl (p & E & Hlen & Hm)]].
  - eexists. split; [exact E|]. split; [exact Hlen|].
    destruct (most_remote_sound _ _ _ _ _ _ Hm (where_nodup _ _)) as [H1 H2].
    split; [exact H1|]. split.
    + apply Forall_app. split.
      * apply Forall_forall. intros i Hi. apply large_in in Hi. unfold over_half, customer in *.
        destruct i; lia.
      * eapply Forall_impl; [|exact H2]. cbv beta. tauto.
    + left. intros i Hc Ho. apply in_app_iff. left. apply large_in. unfold customer in Hc. intuition lia.
  - eexists. split; [exact E|]. split; [exact Hlen|].
    destruct (most_remote_sound _ _ _ _ _ _ Hm (NoDup_nil _)) as [H1 H2].
    split; [exact H1|]. split.
    + eapply Forall_impl; [|exact H2]. cbv beta. tauto.
    + right. intros i Hi. rewrite Forall_forall in H2. apply H2 in Hi. tauto.
Qed.

(** *** The second trial *)

Lemma insert_desc_perm d x l : Permutation (insert_desc d x l) (x :: l).
Proof.
  induction l as [|y l IH]; cbn; [reflexivity|].
  destruct (_ || _); [reflexivity|]. rewrite IH. apply perm_swap.
Qed.

Lemma sort_desc_perm d l : Permutation (sort_desc d l) l.
Proof. induction l as [|x l IH]; cbn; [reflexivity|]. rewrite insert_desc_perm, IH. reflexivity. Qed.

Definition before (d : nat -> Z) (x y : nat) : Prop := d y < d x \/ (d y = d x /\ (y <= x)%nat).

Lemma insert_desc_head d x l :
  (forall y t, l = y :: t -> forall z, In z l -> before d y z) ->
  forall y t, insert_desc d x l = y :: t -> forall z, In z (x :: l) -> before d y z.
Proof.
  intros H y t E z Hz. destruct l as [|a l].
  - cbn in E. inversion E; subst. cbn in Hz. destruct Hz as [<-|[]]. unfold before. lia.
  - cbn [insert_desc] in E. specialize (H a l eq_refl).
    assert (Ha : before d a z \/ z = x).
    { destruct Hz as [<-|Hz]; [auto|left; auto]. }
    destruct ((d a <? d x) || ((d a =? d x) && Nat.ltb a x)) eqn:Eb; inversion E; subst.
    + destruct Ha as [Ha|Ha]; [|subst]; unfold before in *; lia.
    + destruct Ha as [Ha|Ha]; [exact Ha|subst]. unfold before. lia.
Qed.

Lemma sort_desc_head d : forall l y t, sort_desc d l = y :: t -> forall z, In z l -> before d y z.
Proof.
  induction l as [|x l IH]; intros y t E z Hz; [contradiction|].
  cbn [sort_desc fold_right] in E. fold (sort_desc d l) in E.
  refine (insert_desc_head d x (sort_desc d l) _ y t E z _).
  - intros y' t' E' z' Hz'. apply (IH _ _ E'). apply (Permutation_in _ (sort_desc_perm d l)). exact Hz'.
  - destruct Hz as [<-|Hz]; [left; reflexivity|right].
    apply (Permutation_in _ (Permutation_sym (sort_desc_perm d l))). exact Hz.
Qed.

Lemma second_candidates N d C j :
  customer N j -> ~ over_half d C j -> d 0%nat <= d j ->
  exists i, customer N i /\ ~ over_half d C i
    /\ (forall k, customer N k -> ~ over_half d C k -> d k <= d i)
    /\ seed_candidates N d C 1 =
       Some (where_ N (fun i => C <? 2 * d i) ++ [i], set_mask (fun i => C <? 2 * d i) i true).
Proof.
  intros Hj Ho Hd. unfold seed_candidates.
  set (rest := where_ N (fun i => negb (C <? 2 * d i))).
  assert (Hin : forall k, In k rest <-> (k < N)%nat /\ ~ over_half d C k).
  { intros k. unfold rest. rewrite where_in. unfold over_half. lia. }
  destruct (sort_desc d rest) as [|i t] eqn:E.
  - exfalso. pose proof (sort_desc_perm d rest) as HP. rewrite E in HP.
    apply Permutation_nil in HP. assert (In j rest) by (apply Hin; unfold customer in Hj; intuition lia).
    rewrite HP in H. contradiction.
  - pose proof (sort_desc_head d rest i t E) as Hh.
    assert (Hi : In i rest).
    { apply (Permutation_in _ (sort_desc_perm d rest)). rewrite E. left. reflexivity. }
    apply Hin in Hi. unfold customer in *.
    assert (Hjb : before d i j) by (apply Hh; apply Hin; intuition lia).
    exists i. split; [|split; [tauto|split]].
    + unfold before in Hjb. destruct i; [|lia]. lia.
    + intros k Hk1 Hk2. assert (Hb : before d i k) by (apply Hh; apply Hin; intuition lia).
      unfold before in Hb. lia.
    + replace (Nat.max 0 (1 - N)) with 0%nat by lia.
      replace (Nat.min N 1) with 1%nat by lia.
      cbn [Nat.sub skipn firstn]. reflexivity.
Qed.

Lemma where_add N m i : (i < N)%nat -> m i = false ->
  Permutation (where_ N m ++ [i]) (where_ N (set_mask m i true)).
Proof.
  intros Hi Hm. rewrite <- Permutation_cons_append.
  apply NoDup_Permutation.
  - constructor; [rewrite where_in; intuition congruence|apply where_nodup].
  - apply where_nodup.
  - intros k. cbn [In]. rewrite !where_in. unfold set_mask.
    destruct (Nat.eqb_spec k i); subst; intuition.
Qed.

Lemma second_trial_seeds N D d root C K j :
  2 * d 0%nat <= C -> (K < N)%nat -> customer N j -> ~ over_half d C j -> d 0%nat <= d j ->
  exists s, large_demand_seeds N D d root C K 1 = Seeds s
    /\ length s = K /\ NoDup s /\ Forall (customer N) s.
Proof.
  intros Hd0 HK Hj Ho Hdj.
  destruct (second_candidates N d C j Hj Ho Hdj) as (i & Hi & Hio & Himax & Ec).
  unfold large_demand_seeds. rewrite Ec.
  set (m := set_mask (fun i => C <? 2 * d i) i true).
  set (l := where_ N (fun i => C <? 2 * d i) ++ [i]).
  assert (HP : Permutation l (where_ N m)).
  { apply where_add; unfold customer, over_half in *; lia. }
  assert (Hl0 : forall k, In k l -> customer N k).
  { intros k Hk. apply in_app_iff in Hk. destruct Hk as [Hk|[<-|[]]]; [|exact Hi].
    apply large_in in Hk. unfold customer, over_half in *. destruct k; lia. }
  assert (Hnd : NoDup l) by (apply (Permutation_NoDup (Permutation_sym HP)), where_nodup).
  assert (H0 : ~ In 0%nat l) by (intros H; apply Hl0 in H; unfold customer in H; lia).
  assert (HlN : forall k, In k l -> (k < N)%nat) by (intros k Hk; apply Hl0 in Hk; unfold customer in Hk; lia).
  destruct (Nat.leb_spec (length l) K) as [Hle|Hgt].
  - assert (Hc : (length (where_ N m) + length (where_ N (set_mask (fun i => negb (m i)) 0 false)) = N - 1)%nat).
    { apply split_count; [|lia]. unfold m, set_mask.
      destruct (Nat.eqb_spec 0 i); [subst; unfold customer in Hi; lia|lia]. }
    rewrite <- (Permutation_length HP) in Hc.
    destruct (K - length l)%nat as [|n] eqn:En.
    + exists l. cbn [seed_loop]. split; [reflexivity|]. split; [lia|]. split; [exact Hnd|].
      apply Forall_forall. exact Hl0.
    + rewrite refill_step by (intros E; rewrite E in Hc; cbn in Hc; lia).
      destruct (seed_loop_distinct N D d root m ltac:(lia) (S n) l
                  (fold_left (fun m i => set_mask m i true) l (fun i => Nat.eqb i 0))
                  (set_mask (fun i => negb (m i)) 0 false)
                  (where_ N (set_mask (fun i => negb (m i)) 0 false)) true)
        as (picks & E & Hlen & Hn & Hin).
      * apply start_ok; auto; lia.
      * reflexivity.
      * lia.
      * intros H. apply rest_in in H. destruct H as [[H _] _]. lia.
      * intros k Hk Hs. apply rest_in in Hk. destruct Hk as [_ Hk].
        apply (Permutation_in _ HP) in Hs. apply where_in in Hs. destruct Hs; congruence.
      * exists (l ++ picks). split; [exact E|]. split; [rewrite app_length; lia|].
        split; [exact Hn|]. apply Forall_app. split; [apply Forall_forall; exact Hl0|].
        apply Forall_forall. intros k Hk. apply Hin, rest_in in Hk. tauto.
  - destruct (seed_loop_distinct N D d root m ltac:(lia) K [] (fun i => Nat.eqb i 0) m l false)
      as (picks & E & Hlen & Hn & Hin).
    + apply (start_ok N []); [lia|constructor|intros []|intros x []].
    + exact HP.
    + lia.
    + exact H0.
    + intros k _ [].
    + exists picks. cbn [app] in *. split; [exact E|]. split; [exact Hlen|]. split; [exact Hn|].
      apply Forall_forall. auto.
Qed.

(** *** Later trials *)

Lemma later_trials_fail N D d root C K trial j :
  2 * d 0%nat <= C -> customer N j -> ~ over_half d C j -> (2 <= trial <= N)%nat ->
  large_demand_seeds N D d root C K trial = Seed_index_error.
Proof.
  intros Hd0 Hj Ho Ht. unfold large_demand_seeds, seed_candidates.
  destruct trial as [|t]; [lia|].
  set (rest := where_ N (fun i => negb (C <? 2 * d i))).
  assert (Hlen : (2 <= length (sort_desc d rest))%nat).
  { rewrite (Permutation_length (sort_desc_perm d rest)).
    apply (NoDup_incl_length (l := [0%nat; j])).
    - unfold customer in Hj. constructor; [cbn; lia|]. constructor; [cbn; tauto|constructor].
    - intros k Hk. unfold rest. apply where_in. unfold customer, over_half in *. cbn in Hk.
      destruct Hk as [<-|[<-|[]]]; lia. }
  replace (Nat.max 0 (S t - N)) with 0%nat by lia.
  replace (Nat.min N (S t)) with (S t) by lia.
  cbn [skipn]. replace (S t - 0)%nat with (S t) by lia.
  destruct t as [|t]; [lia|].
  destruct (sort_desc d rest) as [|a [|b l]]; cbn in Hlen; try lia.
  reflexivity.
Qed.
