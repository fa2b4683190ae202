(** * Proofs about parallel savings *)
From Verif Require Import Spec Spec_inter Spec_savings PyBase M_util M_psavings P_base P_cvrp P_util P_intra P_intra2 P_inter P_inter2 P_driver P_driver2.
From Coq Require Import ZifyBool ZifyNat.

(** ** Lists *)
Lemma nth_error_set {A} n (v : A) l x :
  nth_error (set_nth n v l) x = if Nat.eqb n x then (if (x <? length l)%nat then Some v else None) else nth_error l x.
Proof.
  revert n x. induction l as [|y l IH]; intros [|n] [|x]; cbn [set_nth nth_error length]; try reflexivity.
  - now destruct (Nat.eqb (S n) (S x)).
  - rewrite IH. cbn [Nat.eqb]. replace (S x <? S (length l))%nat with (x <? length l)%nat by lia. reflexivity.
Qed.

Lemma nth_error_set_same {A} n (v : A) l y : nth_error l n = Some y -> nth_error (set_nth n v l) n = Some v.
Proof.
  intros H. rewrite nth_error_set, Nat.eqb_refl. assert (n < length l)%nat by (apply nth_error_Some; congruence).
  destruct (Nat.ltb_spec n (length l)); [reflexivity|lia].
Qed.
Lemma nth_error_set_other {A} n (v : A) l x : n <> x -> nth_error (set_nth n v l) x = nth_error l x.
Proof. intros H. rewrite nth_error_set. destruct (Nat.eqb_spec n x); [contradiction|reflexivity]. Qed.

Lemma set_set {A} n (u v : A) l : set_nth n u (set_nth n v l) = set_nth n u l.
Proof. revert n. induction l as [|y l IH]; intros [|n]; cbn; try reflexivity. now rewrite IH. Qed.
Lemma set_comm {A} n m (u v : A) l : n <> m -> set_nth n u (set_nth m v l) = set_nth m v (set_nth n u l).
Proof.
  revert n m. induction l as [|y l IH]; intros [|n] [|m] H; cbn; try reflexivity; try congruence.
  rewrite IH by congruence. reflexivity.
Qed.

Lemma set_perm {A} n (y : A) l : nth_error l n = Some y ->
  exists rest, Permutation l (y :: rest) /\ forall v, Permutation (set_nth n v l) (v :: rest).
Proof.
  revert n. induction l as [|z l IH]; intros [|n] H; cbn in H; try discriminate.
  - injection H as ->. exists l. split; [reflexivity|]. intros v. reflexivity.
  - destruct (IH n H) as (rest & H1 & H2). exists (z :: rest). split.
    + rewrite H1. apply perm_swap.
    + intros v. cbn [set_nth]. rewrite H2. apply perm_swap.
Qed.

Lemma set2_perm {A} n m (y z : A) l : n <> m -> nth_error l n = Some y -> nth_error l m = Some z ->
  exists rest, Permutation l (y :: z :: rest) /\ forall u v, Permutation (set_nth m v (set_nth n u l)) (u :: v :: rest).
Proof.
  revert n m. induction l as [|w l IH]; intros [|n] [|m] H H1 H2; cbn in H1, H2; try discriminate; try congruence.
  - injection H1 as ->. destruct (set_perm m z l H2) as (rest & P1 & P2). exists rest. split; [now constructor|].
    intros u v. cbn [set_nth]. now constructor.
  - injection H2 as ->. destruct (set_perm n y l H1) as (rest & P1 & P2). exists rest. split.
    + rewrite P1. apply perm_swap.
    + intros u v. cbn [set_nth]. rewrite P2. apply perm_swap.
  - destruct (IH n m) as (rest & P1 & P2); [congruence|exact H1|exact H2|]. exists (w :: rest). split.
    + rewrite P1. transitivity (y :: w :: z :: rest); [apply perm_swap|constructor; apply perm_swap].
    + intros u v. cbn [set_nth]. rewrite P2. transitivity (u :: w :: v :: rest); [apply perm_swap|constructor; apply perm_swap].
Qed.

Definition o2l (o : option (list nat)) : list (list nat) := match o with Some r => [r] | None => [] end.
Definition live (R : list (option (list nat))) : list (list nat) := flat_map o2l R.

Lemma live_perm R R' : Permutation R R' -> Permutation (live R) (live R').
Proof.
  induction 1; cbn.
  - reflexivity.
  - now apply Permutation_app_head.
  - rewrite !app_assoc. apply Permutation_app_tail, Permutation_app_comm.
  - now transitivity (live l').
Qed.
Lemma concat_perm (a b : list (list nat)) : Permutation a b -> Permutation (concat a) (concat b).
Proof.
  induction 1; cbn.
  - reflexivity.
  - now apply Permutation_app_head.
  - rewrite !app_assoc. apply Permutation_app_tail, Permutation_app_comm.
  - now transitivity (concat l').
Qed.
Lemma in_live R r : In r (live R) <-> In (Some r) R.
Proof.
  unfold live. rewrite in_flat_map. split.
  - intros ([x|] & H1 & H2); [|contradiction]. destruct H2 as [->|[]]. exact H1.
  - intros H. exists (Some r). split; [exact H|now left].
Qed.

(** ** Routes *)
Lemma insert_longer D l1 X l2 : triangle D -> route_cost D (l1 ++ l2) <= route_cost D (l1 ++ X ++ l2).
Proof.
  intros HT. induction X as [|x X IH]; [cbn [app]; lia|]. pose proof (remove_shorter D l1 x (X ++ l2) HT).
  cbn [app] in *. lia.
Qed.
Lemma demand_nonneg d r : (forall n, 0 <= d n) -> 0 <= demand d r.
Proof. intros H. induction r as [|x r IH]; [cbn; lia|]. specialize (H x). change (demand d (x :: r)) with (d x + demand d r). lia. Qed.

Lemma infeasible_extend D d C L ceps seps l1 X l2 : triangle D -> (forall n, 0 <= d n) ->
  ~ feasible D d C L ceps seps (l1 ++ l2) -> ~ feasible D d C L ceps seps (l1 ++ X ++ l2).
Proof.
  intros HT Hd H [H1 H2]. apply H. split.
  - eapply within_mono; [|apply Z.le_refl|exact H1]. rewrite !demand_app. pose proof (demand_nonneg d X Hd). lia.
  - eapply within_mono; [|apply Z.le_refl|exact H2]. now apply insert_longer.
Qed.

Lemma join_cost D a b : symmetric D -> route_cost D (a ++ b) =
  route_cost D a - D 0%nat (last a 0%nat) + route_cost D b - D 0%nat (hd 0%nat b) + D (last a 0%nat) (hd 0%nat b).
Proof.
  intros Hs. rewrite rc_split. pose proof (rc_split D a []) as H1. rewrite app_nil_r in H1.
  pose proof (rc_split D [] b) as H2. cbn [app last hd] in *. rewrite H1, H2.
  change (pre_cost D []) with 0. change (suf_cost D []) with 0. rewrite (Hs (last a 0%nat) 0%nat). lia.
Qed.

Lemma same_dir_ends (r a : list nat) : same_dir r a ->
  (hd 0%nat a = hd 0%nat r /\ last a 0%nat = last r 0%nat) \/ (hd 0%nat a = last r 0%nat /\ last a 0%nat = hd 0%nat r).
Proof. intros [->| ->]; [now left|right]. split; [apply hd_rev'|apply last_rev']. Qed.
Lemma same_dir_perm (r a : list nat) : same_dir r a -> Permutation a r.
Proof. intros [->| ->]; [reflexivity|]. symmetry. apply Permutation_rev. Qed.
Lemma same_dir_ne (r a : list nat) : same_dir r a -> r <> [] -> a <> [].
Proof. intros [->| ->] H; [exact H|now apply rev_ne]. Qed.
Lemma hd_in (a : list nat) : a <> [] -> In (hd 0%nat a) a.
Proof. destruct a; [easy|now left]. Qed.
Lemma last_in (a : list nat) : a <> [] -> In (last a 0%nat) a.
Proof.
  intros H. destruct (exists_last H) as (q & x & ->). rewrite last_last. apply in_or_app. right. now left.
Qed.
Lemma hd_last_ne (a : list nat) : NoDup a -> (1 < length a)%nat -> hd 0%nat a <> last a 0%nat.
Proof.
  destruct a as [|x [|y a]]; cbn [length]; try lia. intros H _. inversion H as [|? ? H1 _]. cbn [hd].
  change (last (x :: y :: a) 0%nat) with (last (y :: a) 0%nat). intros E. apply H1. rewrite E. now apply last_in.
Qed.

(** ** The invariant *)
Section PS.
Variables (ceps seps : Z) (N : nat) (D : matrix) (d : demands) (C L : limit) (mk : bool).
Hypothesis Hsym : symmetric D.

Record pinv (st : pstate) : Prop := {
  pi_cov : Permutation (concat (live (ps_routes st))) (seq 1 (N - 1));
  pi_ne : forall r, In (Some r) (ps_routes st) -> r <> [];
  pi_elen : length (ps_end st) = N;
  pi_end : forall x k, (1 <= x)%nat -> nth_error (ps_end st) x = Some (Some k) ->
     exists r, nth_error (ps_routes st) k = Some (Some r) /\ (hd 0%nat r = x \/ last r 0%nat = x);
  pi_idx : forall k r x, nth_error (ps_routes st) k = Some (Some r) -> hd 0%nat r = x \/ last r 0%nat = x ->
     nth_error (ps_end st) x = Some (Some k);
  pi_dem : is_set C = true -> length (ps_dem st) = length (ps_routes st) /\
     forall k r, nth_error (ps_routes st) k = Some (Some r) -> nth k (ps_dem st) 0 = demand d r;
  pi_cost : is_set L = true -> length (ps_cost st) = length (ps_routes st) /\
     forall k r, nth_error (ps_routes st) k = Some (Some r) -> nth k (ps_cost st) 0 = route_cost D r }.

Lemma pinv_nodup st : pinv st -> NoDup (concat (live (ps_routes st))).
Proof. intros H. eapply Permutation_NoDup; [symmetry; exact (pi_cov _ H)|apply seq_NoDup]. Qed.

Lemma live_disjoint R k l q p x : NoDup (concat (live R)) -> nth_error R k = Some (Some q) -> nth_error R l = Some (Some p) ->
  k <> l -> In x q -> In x p -> False.
Proof.
  intros HN H1 H2 Hkl Hq Hp. destruct (set2_perm k l _ _ R Hkl H1 H2) as (rest & HP & _).
  apply live_perm, concat_perm in HP. cbn in HP. apply (Permutation_NoDup HP) in HN.
  apply (NoDup_app_in _ _ x HN Hq). apply in_or_app. now left.
Qed.
Lemma live_route_nodup R k q : NoDup (concat (live R)) -> nth_error R k = Some (Some q) -> NoDup q.
Proof.
  intros HN H1. destruct (set_perm k _ R H1) as (rest & HP & _). apply live_perm, concat_perm in HP. cbn in HP.
  apply (Permutation_NoDup HP) in HN. apply (Permutation_NoDup (Permutation_app_comm _ _)) in HN. now apply NoDup_app_r in HN.
Qed.

Lemma pinv_init : (1 <= N)%nat -> pinv (ps_init N D d C L).
Proof.
  intros HN. assert (HR : forall k r, nth_error (ps_routes (ps_init N D d C L)) k = Some (Some r) -> r = [S k] /\ (k < N - 1)%nat).
  { intros k r H. cbn in H. unfold range in H. rewrite nth_error_map in H. destruct (nth_error (seq 1 (N - 1)) k) as [y|] eqn:E; [|discriminate].
    injection H as <-. assert (k < N - 1)%nat by (rewrite <- (seq_length (N - 1) 1); apply nth_error_Some; congruence).
    apply (nth_error_nth _ _ 0%nat) in E. rewrite seq_nth in E by assumption. subst y. split; [reflexivity|lia]. }
  split.
  - cbn. unfold range. clear HR HN. assert (G : forall n s, concat (live (map (fun i => Some [i]) (seq s n))) = seq s n).
    { induction n as [|n IH]; intros s; [reflexivity|]. cbn. f_equal. apply IH. }
    now rewrite G.
  - intros r H. apply In_nth_error in H. destruct H as [k H]. apply HR in H. destruct H as [-> _]. discriminate.
  - cbn. unfold range. rewrite map_length, seq_length. lia.
  - intros x k Hx H. destruct x as [|x]; [lia|]. cbn [ps_init ps_end nth_error] in H. unfold range in H. rewrite nth_error_map in H.
    destruct (nth_error (seq 0 (N - 1 - 0)) x) as [y|] eqn:E; [|discriminate]. injection H as ->.
    assert (x < N - 1 - 0)%nat by (rewrite <- (seq_length (N - 1 - 0) 0); apply nth_error_Some; congruence).
    apply (nth_error_nth _ _ 0%nat) in E. rewrite seq_nth in E by assumption. exists [S x]. cbn in E. subst k.
    split; [|now left]. cbn. unfold range. rewrite nth_error_map.
    rewrite (nth_error_nth' _ 0%nat) by (rewrite seq_length; lia). rewrite seq_nth by lia. reflexivity.
  - intros k r x H Hx. apply HR in H. destruct H as [-> Hk]. assert (x = S k) as -> by (cbn in Hx; lia).
    cbn. unfold range. rewrite nth_error_map, (nth_error_nth' _ 0%nat) by (rewrite seq_length; lia). rewrite seq_nth by lia. reflexivity.
  - intros HC. cbn. unfold range. rewrite HC, !map_length. split; [reflexivity|]. intros k r H.
    apply (HR k r) in H. destruct H as [-> Hk]. rewrite (nth_indep _ 0 (d 0%nat)) by (rewrite map_length, seq_length; lia).
    rewrite map_nth, seq_nth by lia. unfold demand. cbn. lia.
  - intros HL. cbn. unfold range. rewrite HL, !map_length. split; [reflexivity|]. intros k r H.
    apply (HR k r) in H. destruct H as [-> Hk].
    rewrite (nth_indep _ 0 ((fun i => D 0%nat i + D i 0%nat) 0%nat)) by (rewrite map_length, seq_length; lia).
    rewrite (map_nth (fun i => D 0%nat i + D i 0%nat)), seq_nth by lia. unfold route_cost. cbn. lia.
Qed.

(** What holds before a merge *)
Record mergeable (st : pstate) (i j l r : nat) (lr rr a b : list nat) (md mc : Z) : Prop := {
  m_i : (1 <= i < N)%nat; m_j : (1 <= j < N)%nat;
  m_ne : l <> r;
  m_l : nth_error (ps_routes st) l = Some (Some lr); m_r : nth_error (ps_routes st) r = Some (Some rr);
  m_a : a = (if Nat.eqb (hd 0%nat lr) i then rev lr else lr); m_b : b = (if Nat.eqb (last rr 0%nat) j then rev rr else rr);
  m_sa : same_dir lr a; m_sb : same_dir rr b; m_ane : a <> []; m_bne : b <> [];
  m_la : last a 0%nat = i; m_hb : hd 0%nat b = j;
  m_dem : is_set C = true -> md = demand d (a ++ b); m_cost : is_set L = true -> mc = route_cost D (a ++ b) }.

Lemma mergeable_intro st i j l r : pinv st -> (1 <= i < N)%nat -> (1 <= j < N)%nat ->
  nth_error (ps_end st) i = Some (Some l) -> nth_error (ps_end st) j = Some (Some r) -> l <> r ->
  exists lr rr, nth l (ps_routes st) None = Some lr /\ nth r (ps_routes st) None = Some rr /\
    mergeable st i j l r lr rr (if Nat.eqb (hd 0%nat lr) i then rev lr else lr) (if Nat.eqb (last rr 0%nat) j then rev rr else rr)
      (nth l (ps_dem st) 0 + nth r (ps_dem st) 0)
      (nth l (ps_cost st) 0 - D 0%nat i + nth r (ps_cost st) 0 - D 0%nat j + D i j).
Proof.
  intros HI Hi Hj Ei Ej Hlr.
  destruct (pi_end _ HI i l (proj1 Hi) Ei) as (lr & Hl & El). destruct (pi_end _ HI j r (proj1 Hj) Ej) as (rr & Hr & Er).
  assert (Nl : lr <> []) by (apply (pi_ne _ HI); now apply nth_error_In in Hl).
  assert (Nr : rr <> []) by (apply (pi_ne _ HI); now apply nth_error_In in Hr).
  exists lr, rr. split; [now apply nth_error_nth|]. split; [now apply nth_error_nth|].
  set (a := if Nat.eqb (hd 0%nat lr) i then rev lr else lr). set (b := if Nat.eqb (last rr 0%nat) j then rev rr else rr).
  assert (Sa : same_dir lr a) by (unfold a; destruct (Nat.eqb _ _); [now right|now left]).
  assert (Sb : same_dir rr b). { unfold b. destruct (last rr 0 =? j)%nat. right; reflexivity. now left. }
  assert (La : last a 0%nat = i).
  { unfold a. destruct (Nat.eqb_spec (hd 0%nat lr) i) as [E|E]; [now rewrite last_rev'|tauto]. }
  assert (Hb : hd 0%nat b = j).
  { unfold b. destruct (Nat.eqb_spec (last rr 0%nat) j) as [E|E]; [now rewrite hd_rev'|tauto]. }
  split; try assumption; try reflexivity; try (now apply (same_dir_ne lr)); try (now apply (same_dir_ne rr)).
  - intros HC. destruct (pi_dem _ HI HC) as [_ H]. rewrite (H l lr Hl), (H r rr Hr), demand_app.
    now rewrite (same_dir_demand d lr a Sa), (same_dir_demand d rr b Sb).
  - intros HL. destruct (pi_cost _ HI HL) as [_ H]. rewrite (H l lr Hl), (H r rr Hr), join_cost by exact Hsym.
    rewrite (same_dir_cost D lr a Hsym Sa), (same_dir_cost D rr b Hsym Sb), La, Hb. reflexivity.
Qed.

(** The state after the merge *)
Definition merged (st : pstate) (l r : nat) (a b : list nat) (md mc : Z) : pstate :=
  mkps (set_nth r None (set_nth l (Some (a ++ b)) (ps_routes st)))
       (if is_set C then set_nth l md (ps_dem st) else ps_dem st)
       (if is_set L then set_nth l mc (ps_cost st) else ps_cost st)
       (set_nth (last b 0%nat) (Some l)
          (if (1 <? length b)%nat then set_nth (hd 0%nat b) None
             (if (1 <? length a)%nat then set_nth (last a 0%nat) None (ps_end st) else ps_end st)
           else (if (1 <? length a)%nat then set_nth (last a 0%nat) None (ps_end st) else ps_end st))).

Lemma end3_spec st (a b : list nat) l x : (forall y, In y (a ++ b) -> (y < length (ps_end st))%nat) -> a <> [] -> b <> [] ->
  nth_error (ps_end (merged st l 0 a b 0 0)) x =
   if Nat.eqb (last b 0%nat) x then Some (Some l)
   else if ((1 <? length b)%nat && Nat.eqb (hd 0%nat b) x) || ((1 <? length a)%nat && Nat.eqb (last a 0%nat) x) then Some None
   else nth_error (ps_end st) x.
Proof.
  intros HB Ha Hb. cbn [merged ps_end].
  assert (B1 : (last b 0 < length (ps_end st))%nat) by (apply HB, in_or_app; right; now apply last_in).
  assert (B2 : (hd 0 b < length (ps_end st))%nat) by (apply HB, in_or_app; right; now apply hd_in).
  assert (B3 : (last a 0 < length (ps_end st))%nat) by (apply HB, in_or_app; left; now apply last_in).
  rewrite nth_error_set.
  assert (HL : forall c (u v : list (option nat)), length u = length v -> length (if c : bool then u else v) = length v) by (intros [|]; auto).
  destruct (Nat.eqb_spec (last b 0%nat) x) as [E|E].
  - subst x. destruct (1 <? length b)%nat, (1 <? length a)%nat; rewrite ?set_nth_length; destruct (Nat.ltb_spec (last b 0%nat) (length (ps_end st))); reflexivity || lia.
  - destruct (1 <? length b)%nat eqn:L1, (1 <? length a)%nat eqn:L2; cbn [andb orb]; rewrite ?nth_error_set, ?set_nth_length.
    + destruct (Nat.eqb_spec (hd 0%nat b) x) as [E1|E1]; cbn [orb].
      * subst x. destruct (Nat.ltb_spec (hd 0%nat b) (length (ps_end st))); reflexivity || lia.
      * destruct (Nat.eqb_spec (last a 0%nat) x) as [E2|E2]; [|reflexivity].
        subst x. destruct (Nat.ltb_spec (last a 0%nat) (length (ps_end st))); reflexivity || lia.
    + destruct (Nat.eqb_spec (hd 0%nat b) x) as [E1|E1]; cbn [orb]; [|reflexivity].
      subst x. destruct (Nat.ltb_spec (hd 0%nat b) (length (ps_end st))); reflexivity || lia.
    + destruct (Nat.eqb_spec (last a 0%nat) x) as [E2|E2]; [|reflexivity].
      subst x. destruct (Nat.ltb_spec (last a 0%nat) (length (ps_end st))); reflexivity || lia.
    + reflexivity.
Qed.

Lemma merged_live st i j l r lr rr a b md mc : mergeable st i j l r lr rr a b md mc ->
  exists rest, Permutation (live (ps_routes st)) (lr :: rr :: rest) /\
    Permutation (live (ps_routes (merged st l r a b md mc))) ((a ++ b) :: rest) /\
    (forall u v, Permutation (live (set_nth r (Some v) (set_nth l (Some u) (ps_routes st)))) (u :: v :: rest)).
Proof.
  intros M. destruct (set2_perm l r _ _ _ (m_ne _ _ _ _ _ _ _ _ _ _ _ M) (m_l _ _ _ _ _ _ _ _ _ _ _ M) (m_r _ _ _ _ _ _ _ _ _ _ _ M))
    as (rest & P1 & P2).
  exists (live rest). split; [apply live_perm in P1; exact P1|]. split.
  - cbn [merged ps_routes]. specialize (P2 (Some (a ++ b)) None). apply live_perm in P2. exact P2.
  - intros u v. specialize (P2 (Some u) (Some v)). apply live_perm in P2. exact P2.
Qed.

Lemma merged_inv st i j l r lr rr a b md mc : pinv st -> mergeable st i j l r lr rr a b md mc -> pinv (merged st l r a b md mc).
Proof.
  intros HI M. destruct (merged_live _ _ _ _ _ _ _ _ _ _ _ M) as (rest & P1 & P2 & _).
  pose proof (pinv_nodup _ HI) as HN. destruct M as [Hi Hj Hlr Hl Hr _ _ Sa Sb Na Nb La Hb Md Mc].
  pose proof (same_dir_perm _ _ Sa) as Pa. pose proof (same_dir_perm _ _ Sb) as Pb.
  assert (HNall : NoDup (lr ++ rr)).
  { apply concat_perm in P1. cbn in P1. apply (Permutation_NoDup P1) in HN. rewrite app_assoc in HN.
    apply (Permutation_NoDup (Permutation_app_comm _ _)) in HN. now apply NoDup_app_r in HN. }
  assert (HNab : NoDup (a ++ b)) by (eapply Permutation_NoDup; [|exact HNall]; now rewrite Pa, Pb).
  assert (NDa : NoDup a) by (apply (Permutation_NoDup (Permutation_app_comm _ _)) in HNab; now apply NoDup_app_r in HNab).
  assert (NDb : NoDup b) by now apply NoDup_app_r in HNab.
  assert (Dab : forall x, In x a -> In x b -> False) by (intros x; now apply NoDup_app_in).
  assert (HB : forall y, In y (a ++ b) -> (y < length (ps_end st))%nat).
  { intros y Hy. rewrite (pi_elen _ HI). assert (In y (concat (live (ps_routes st)))) as Hc.
    { apply concat_perm in P1. apply (Permutation_in _ (Permutation_sym P1)). cbn. rewrite app_assoc. apply in_or_app. left.
      eapply Permutation_in; [|exact Hy]. now rewrite Pa, Pb. }
    apply (Permutation_in _ (pi_cov _ HI)) in Hc. apply in_seq in Hc. lia. }
  pose proof (fun x => end3_spec st a b l x HB Na Nb) as E3. cbn [merged ps_end] in E3.
  assert (RO : forall k q, nth_error (set_nth r None (set_nth l (Some (a ++ b)) (ps_routes st))) k = Some (Some q) ->
     (k = l /\ q = a ++ b) \/ (k <> l /\ k <> r /\ nth_error (ps_routes st) k = Some (Some q))).
  { intros k q H. rewrite nth_error_set, set_nth_length in H. destruct (Nat.eqb_spec r k) as [E|E].
    - destruct (Nat.ltb _ _) in H; discriminate.
    - rewrite nth_error_set in H. destruct (Nat.eqb_spec l k) as [E'|E'].
      + destruct (Nat.ltb _ _) in H; [|discriminate]. injection H as <-. now left.
      + right. auto. }
  assert (RL : nth_error (set_nth r None (set_nth l (Some (a ++ b)) (ps_routes st))) l = Some (Some (a ++ b))).
  { rewrite nth_error_set_other by congruence. now apply (nth_error_set_same _ _ _ (Some lr)). }
  assert (Hab : forall z, hd 0%nat (a ++ z) = hd 0%nat a) by (intros z; destruct a; [easy|reflexivity]).
  assert (Lab : last (a ++ b) 0%nat = last b 0%nat).
  { destruct (exists_last Nb) as (b' & y & ->). now rewrite app_assoc, !last_last. }
  split; cbn [merged ps_routes ps_end ps_dem ps_cost].
  - apply concat_perm in P2. cbn [merged ps_routes] in P2. rewrite P2. cbn [concat]. rewrite <- (pi_cov _ HI).
    apply concat_perm in P1. rewrite P1. cbn [concat]. rewrite <- Pa, <- Pb. rewrite <- app_assoc. reflexivity.
  - intros q Hq. apply In_nth_error in Hq. destruct Hq as [k Hq]. apply RO in Hq. destruct Hq as [[_ ->]|(_ & _ & Hq)].
    + destruct a; [easy|discriminate].
    + apply (pi_ne _ HI). now apply nth_error_In in Hq.
  - rewrite set_nth_length. destruct (1 <? length b)%nat, (1 <? length a)%nat; rewrite ?set_nth_length; apply (pi_elen _ HI).
  - intros x k Hx H. rewrite E3 in H. destruct (Nat.eqb_spec (last b 0%nat) x) as [E|E].
    + injection H as <-. exists (a ++ b). split; [exact RL|]. right. now rewrite Lab.
    + destruct ((1 <? length b)%nat && Nat.eqb (hd 0%nat b) x) eqn:B1; [discriminate|].
      destruct ((1 <? length a)%nat && Nat.eqb (last a 0%nat) x) eqn:B2; [discriminate|]. cbn [orb] in H.
      destruct (pi_end _ HI x k Hx H) as (q & Hq & Eq).
      destruct (Nat.eq_dec k l) as [->|Hkl].
      * rewrite Hl in Hq. injection Hq as <-. exists (a ++ b). split; [exact RL|]. left. rewrite Hab.
        destruct (same_dir_ends _ _ Sa) as [[S1 S2]|[S1 S2]]; rewrite <- S1, <- S2 in Eq; destruct Eq as [Eq|Eq]; try exact Eq;
          (destruct (Nat.ltb_spec 1 (length a)); [lia|]; destruct a as [|a0 [|]]; cbn [length] in *; [easy|exact Eq|lia]).
      * destruct (Nat.eq_dec k r) as [->|Hkr].
        { rewrite Hr in Hq. injection Hq as <-. exfalso.
          assert (HX : hd 0%nat b = x).
          { destruct (same_dir_ends _ _ Sb) as [[S1 S2]|[S1 S2]]; rewrite <- S1, <- S2 in Eq; destruct Eq; try assumption; contradiction. }
          destruct (Nat.ltb_spec 1 (length b)); [lia|]. destruct b as [|b0 [|]]; cbn [length] in *; [easy|cbn in *; congruence|lia]. }
        exists q. split; [|exact Eq]. rewrite !nth_error_set_other by congruence. exact Hq.
  - intros k q x H Hx. apply RO in H. destruct H as [[-> ->]|(Hkl & Hkr & H)]; rewrite E3.
    + destruct (Nat.eqb_spec (last b 0%nat) x) as [E|E]; [reflexivity|]. rewrite Hab, Lab in Hx.
      destruct Hx as [Hx|Hx]; [|contradiction]. subst x.
      assert (E1 : (hd 0 b =? hd 0 a)%nat = false).
      { apply Nat.eqb_neq. intros E1. apply (Dab (hd 0%nat a)); [now apply hd_in|rewrite <- E1; now apply hd_in]. }
      rewrite E1, andb_false_r. cbn [orb].
      assert (E2 : (1 <? length a)%nat && Nat.eqb (last a 0%nat) (hd 0%nat a) = false).
      { destruct (Nat.ltb_spec 1 (length a)); [|reflexivity]. cbn [andb]. apply Nat.eqb_neq. intros E2. symmetry in E2. revert E2. now apply hd_last_ne. }
      rewrite E2. apply (pi_idx _ HI l lr); [exact Hl|]. destruct (same_dir_ends _ _ Sa) as [[S1 S2]|[S1 S2]]; rewrite S1; auto.
    + assert (Nq : q <> []) by (apply (pi_ne _ HI); now apply nth_error_In in H).
      assert (Iq : In x q) by (destruct Hx as [<-|<-]; [now apply hd_in|now apply last_in]).
      assert (X1 : In x a -> False).
      { intros Ha. apply (live_disjoint _ k l q lr x HN H Hl Hkl Iq). now apply (Permutation_in _ Pa). }
      assert (X2 : In x b -> False).
      { intros Ha. apply (live_disjoint _ k r q rr x HN H Hr Hkr Iq). now apply (Permutation_in _ Pb). }
      assert (E1 : (last b 0 =? x)%nat = false) by (apply Nat.eqb_neq; intros E; apply X2; rewrite <- E; now apply last_in).
      assert (E2 : (hd 0 b =? x)%nat = false) by (apply Nat.eqb_neq; intros E; apply X2; rewrite <- E; now apply hd_in).
      assert (E4 : (last a 0 =? x)%nat = false) by (apply Nat.eqb_neq; intros E; apply X1; rewrite <- E; now apply last_in).
      rewrite E1, E2, E4, !andb_false_r. cbn [orb]. now apply (pi_idx _ HI k q).
  - intros HC. rewrite HC, !set_nth_length. destruct (pi_dem _ HI HC) as [H1 H2]. split; [exact H1|].
    intros k q H. apply RO in H. destruct H as [[-> ->]|(Hkl & Hkr & H)].
    + rewrite set_nth_same; [now apply Md|]. rewrite H1. apply nth_error_Some. congruence.
    + rewrite set_nth_other by congruence. now apply H2.
  - intros HC. rewrite HC, !set_nth_length. destruct (pi_cost _ HI HC) as [H1 H2]. split; [exact H1|].
    intros k q H. apply RO in H. destruct H as [[-> ->]|(Hkl & Hkr & H)].
    + rewrite set_nth_same; [now apply Mc|]. rewrite H1. apply nth_error_Some. congruence.
    + rewrite set_nth_other by congruence. now apply H2.
Qed.

(** ** Good lists of routes *)
Definition star_cost : Z := routes_cost D (map (fun i => [i]) (seq 1 (N - 1))).
Definition goodl (rs : list (list nat)) : Prop :=
  covers N rs /\ Forall (fun r => r <> []) rs /\ Forall (feasible D d C L ceps seps) rs /\
  (mk = false -> routes_cost D rs <= star_cost).

Lemma goodl_perm rs rs' : Permutation rs rs' -> goodl rs -> goodl rs'.
Proof.
  intros HP (H1 & H2 & H3 & H4). split; [|split; [|split]].
  - unfold covers in *. now rewrite <- (concat_perm _ _ HP).
  - now rewrite <- HP.
  - now rewrite <- HP.
  - intros E. specialize (H4 E). unfold routes_cost in *. now rewrite <- (sumZ_perm _ _ (Permutation_map (route_cost D) HP)).
Qed.

Lemma feasible_dir r a : same_dir r a -> feasible D d C L ceps seps r -> feasible D d C L ceps seps a.
Proof. intros S [H1 H2]. split; [now rewrite (same_dir_demand d r a S)|now rewrite (same_dir_cost D r a Hsym S)]. Qed.

Lemma routes_cost_cons r rs : routes_cost D (r :: rs) = route_cost D r + routes_cost D rs.
Proof. reflexivity. Qed.

Lemma goodl_dir r1 r2 u v rest : same_dir r1 u -> same_dir r2 v -> goodl (r1 :: r2 :: rest) -> goodl (u :: v :: rest).
Proof.
  intros S1 S2 (H1 & H2 & H3 & H4). inversion H2 as [|? ? N1 N']; subst. inversion N' as [|? ? N2 N'']; subst.
  inversion H3 as [|? ? F1 F']; subst. inversion F' as [|? ? F2 F'']; subst. split; [|split; [|split]].
  - unfold covers in *. rewrite <- H1. cbn [concat]. now rewrite (same_dir_perm _ _ S1), (same_dir_perm _ _ S2).
  - constructor; [now apply (same_dir_ne r1)|]. constructor; [now apply (same_dir_ne r2)|assumption].
  - constructor; [now apply (feasible_dir r1)|]. constructor; [now apply (feasible_dir r2)|assumption].
  - intros E. specialize (H4 E). rewrite !routes_cost_cons in *. rewrite (same_dir_cost D r1 u), (same_dir_cost D r2 v) by assumption. exact H4.
Qed.

Lemma goodl_join a b rest : a <> [] -> goodl (a :: b :: rest) -> feasible D d C L ceps seps (a ++ b) ->
  (mk = false -> D (last a 0%nat) (hd 0%nat b) <= D (last a 0%nat) 0%nat + D 0%nat (hd 0%nat b)) -> goodl ((a ++ b) :: rest).
Proof.
  intros Na (H1 & H2 & H3 & H4) HF HS. inversion H2 as [|? ? N1 N']; subst. inversion N' as [|? ? N2 N'']; subst.
  inversion H3 as [|? ? F1 F']; subst. inversion F' as [|? ? F2 F'']; subst. split; [|split; [|split]].
  - unfold covers in *. rewrite <- H1. cbn [concat]. now rewrite app_assoc.
  - constructor; [destruct a; [easy|discriminate]|assumption].
  - now constructor.
  - intros E. specialize (H4 E). specialize (HS E). rewrite !routes_cost_cons in *. rewrite join_cost by exact Hsym.
    rewrite (Hsym _ 0%nat) in HS. lia.
Qed.

Lemma exceeds_within lim eps x : exceeds lim eps x = false -> within lim eps x.
Proof.
  unfold exceeds, truthy, within. destruct lim as [c|]; [|easy]. destruct (Z.eqb_spec c 0); [now intros|]. intros H _.
  destruct (Z.ltb_spec c (x - eps)); [discriminate|lia].
Qed.
Lemma within_unset lim eps x : is_set lim = false -> within lim eps x.
Proof. unfold is_set, truthy, within. destruct lim as [c|]; [|easy]. destruct (Z.eqb_spec c 0); [easy|discriminate]. Qed.
Lemma exceeds_not_within lim eps x : exceeds lim eps x = true -> is_set lim = true /\ ~ within lim eps x.
Proof.
  unfold exceeds, is_set, truthy, within. destruct lim as [c|]; [|easy]. destruct (Z.eqb_spec c 0); [discriminate|]. intros H. split; [reflexivity|].
  intros H1. specialize (H1 ltac:(assumption)). lia.
Qed.

(** ** One iteration *)
Definition point_ok (p : ppoint * pstate) : Prop :=
  if (match fst p with Extended => true | _ => false end)
  then (forall c, (1 <= c < N)%nat -> In c (concat (live (ps_routes (snd p))))) /\
       Forall (fun r => r <> []) (live (ps_routes (snd p))) /\ Forall (feasible D d C L ceps seps) (live (ps_routes (snd p))) /\
       Forall customers_only (live (ps_routes (snd p)))
  else goodl (live (ps_routes (snd p))).

Lemma covers_customers rs : covers N rs -> Forall customers_only rs.
Proof.
  intros H. apply Forall_forall. intros r Hr. apply Forall_forall. intros x Hx ->.
  assert (In 0%nat (concat rs)) as H0 by (apply in_concat; now exists r).
  apply (Permutation_in _ H) in H0. apply in_seq in H0. lia.
Qed.

Lemma merge_points_ok st i j l r lr rr a b md mc : pinv st -> mergeable st i j l r lr rr a b md mc ->
  goodl (live (ps_routes st)) -> exceeds C ceps md = false -> exceeds L seps mc = false ->
  (mk = false -> D i j <= D i 0%nat + D 0%nat j) ->
  last_state (merge_points C L st i j l r lr rr md mc) st = merged st l r a b md mc /\
  Forall point_ok (merge_points C L st i j l r lr rr md mc) /\
  goodl (live (ps_routes (merged st l r a b md mc))).
Proof.
  intros HI M HG HC HL HS. destruct (merged_live _ _ _ _ _ _ _ _ _ _ _ M) as (rest & P1 & P2 & P3).
  pose proof M as [Hi Hj Hlr Hl Hr Ea Eb Sa Sb Na Nb La Hb Md Mc].
  assert (HF : feasible D d C L ceps seps (a ++ b)).
  { split.
    - destruct (is_set C) eqn:E; [|now apply within_unset]. rewrite <- (Md eq_refl). now apply exceeds_within.
    - destruct (is_set L) eqn:E; [|now apply within_unset]. rewrite <- (Mc eq_refl). now apply exceeds_within. }
  assert (HG1 : goodl (lr :: rr :: rest)) by now apply (goodl_perm _ _ P1).
  assert (HG2 : goodl (a :: b :: rest)) by (revert HG1; now apply goodl_dir).
  assert (G4 : goodl (live (ps_routes (merged st l r a b md mc)))).
  { apply (goodl_perm ((a ++ b) :: rest)); [now symmetry|]. apply goodl_join; try assumption. now rewrite La, Hb. }
  assert (Q1 : goodl (live (set_nth l (Some a) (ps_routes st)))).
  { apply (goodl_perm (a :: rr :: rest)).
    - symmetry. rewrite <- (P3 a rr). apply live_perm. rewrite (set_comm r l) by congruence.
      assert (E : set_nth r (Some rr) (ps_routes st) = ps_routes st).
      { clear - Hr. revert r Hr. induction (ps_routes st) as [|y R IH]; intros [|r] Hr; cbn in *; try discriminate; [now injection Hr as ->|]. now rewrite IH. }
      now rewrite E.
    - revert HG1. apply goodl_dir; [exact Sa|now left]. }
  assert (Q2 : goodl (live (set_nth r (Some b) (set_nth l (Some a) (ps_routes st))))).
  { apply (goodl_perm (a :: b :: rest)); [now symmetry|exact HG2]. }
  assert (E4 : set_nth r None (set_nth l (Some (a ++ b)) (set_nth r (Some b) (set_nth l (Some a) (ps_routes st)))) =
               set_nth r None (set_nth l (Some (a ++ b)) (ps_routes st))).
  { rewrite (set_comm l r) by congruence. now rewrite !set_set. }
  split; [|split; [|exact G4]].
  - unfold merge_points, last_state. rewrite <- Ea, <- Eb. cbn [map last snd]. unfold merged. now rewrite E4.
  - unfold merge_points. rewrite <- Ea, <- Eb.
    repeat (apply Forall_cons || apply Forall_nil); unfold point_ok; cbn [fst snd ps_routes]; try assumption.
    + assert (PE : Permutation (live (set_nth l (Some (a ++ b)) (set_nth r (Some b) (set_nth l (Some a) (ps_routes st))))) ((a ++ b) :: b :: rest)).
      { rewrite (set_comm l r), set_set by congruence. apply P3. }
      destruct HG2 as (B1 & B2 & B3 & _). pose proof (covers_customers _ B1) as B4.
      pose proof (Forall_inv_tail B2) as B2b. pose proof (Forall_inv_tail B3) as B3b.
      pose proof (Forall_inv B4) as B4a. pose proof (Forall_inv_tail B4) as B4b.
      split; [|split; [|split]]; try (rewrite PE).
      * intros c Hc. apply (Permutation_in _ (Permutation_sym (concat_perm _ _ PE))). cbn [concat].
        assert (In c (concat (a :: b :: rest))) as H by (apply (Permutation_in _ (Permutation_sym B1)); apply in_seq; lia).
        cbn [concat] in H. rewrite !in_app_iff in *. tauto.
      * constructor; [destruct a; [easy|discriminate]|assumption].
      * now constructor.
      * constructor; [|assumption]. apply Forall_app. split; [assumption|]. exact (Forall_inv B4b).
    + rewrite E4. exact G4.
Qed.

(** blocked: no feasible merge of different routes joins [i] and [j] *)
Definition blocked (st : pstate) (i j : nat) : Prop :=
  forall k1 k2 r1 r2 q, k1 <> k2 -> nth_error (ps_routes st) k1 = Some (Some r1) -> nth_error (ps_routes st) k2 = Some (Some r2) ->
    joined r1 r2 i j q -> ~ feasible D d C L ceps seps q.

Lemma joined_idx st k1 k2 r1 r2 i j q : pinv st -> nth_error (ps_routes st) k1 = Some (Some r1) ->
  nth_error (ps_routes st) k2 = Some (Some r2) -> joined r1 r2 i j q ->
  nth_error (ps_end st) i = Some (Some k1) /\ nth_error (ps_end st) j = Some (Some k2).
Proof.
  intros HI H1 H2 (a & b & Sa & Sb & Na & Nb & La & Hb & ->). split.
  - apply (pi_idx _ HI k1 r1 i H1). destruct (same_dir_ends _ _ Sa) as [[S1 S2]|[S1 S2]]; rewrite <- La, S2; auto.
  - apply (pi_idx _ HI k2 r2 j H2). destruct (same_dir_ends _ _ Sb) as [[S1 S2]|[S1 S2]]; rewrite <- Hb, S1; auto.
Qed.

Lemma same_dir_trans' (r a b : list nat) : same_dir r a -> same_dir a b -> same_dir r b.
Proof. intros [->| ->] [->| ->]; unfold same_dir; rewrite ?rev_involutive; auto. Qed.

Lemma last_app_ne (a b : list nat) : b <> [] -> last (a ++ b) 0%nat = last b 0%nat.
Proof. intros H. destruct (exists_last H) as (b' & y & ->). now rewrite app_assoc, !last_last. Qed.
Lemma hd_app_ne' (a b : list nat) : a <> [] -> hd 0%nat (a ++ b) = hd 0%nat a.
Proof. destruct a; [easy|reflexivity]. Qed.

Lemma blocked_merged st i j l r lr rr a b md mc x y : pinv st -> mergeable st i j l r lr rr a b md mc ->
  triangle D -> (forall n, 0 <= d n) ->
  blocked st x y -> blocked (merged st l r a b md mc) x y.
Proof.
  intros HI M HT Hd HB k1 k2 r1 r2 q Hk H1 H2 HJ.
  pose proof M as [Hi Hj Hlr Hl Hr Ea Eb Sa Sb Na Nb La Hb Md Mc].
  assert (RO : forall k q, nth_error (ps_routes (merged st l r a b md mc)) k = Some (Some q) ->
     (k = l /\ q = a ++ b) \/ (k <> l /\ k <> r /\ nth_error (ps_routes st) k = Some (Some q))).
  { intros k p H. cbn [merged ps_routes] in H. rewrite nth_error_set, set_nth_length in H. destruct (Nat.eqb_spec r k) as [E|E].
    - destruct (Nat.ltb _ _) in H; discriminate.
    - rewrite nth_error_set in H. destruct (Nat.eqb_spec l k) as [E'|E'].
      + destruct (Nat.ltb _ _) in H; [|discriminate]. injection H as <-. now left.
      + right. auto. }
  destruct HJ as (a1 & b1 & S1 & S2 & N1 & N2 & L1 & L2 & ->).
  apply RO in H1. apply RO in H2. destruct H1 as [[-> ->]|(A1 & A2 & H1)], H2 as [[-> ->]|(B1 & B2 & H2)].
  - congruence.
  - assert (Sb' : same_dir rr b) by exact Sb. destruct S1 as [->| ->].
    + rewrite last_app_ne in L1 by assumption. rewrite <- app_assoc. apply (infeasible_extend D d C L ceps seps [] a (b ++ b1)); [exact HT|exact Hd|].
      cbn [app]. apply (HB r k2 rr r2); try assumption; [congruence|]. exists b, b1. repeat split; assumption.
    + rewrite rev_app_distr in *. rewrite last_app_ne in L1 by now apply rev_ne. rewrite <- app_assoc.
      apply (infeasible_extend D d C L ceps seps [] (rev b) (rev a ++ b1)); [exact HT|exact Hd|].
      cbn [app]. apply (HB l k2 lr r2); try assumption. exists (rev a), b1. repeat split; try assumption.
      * apply (same_dir_trans' _ a); [exact Sa|now right].
      * now apply rev_ne.
  - destruct S2 as [->| ->].
    + rewrite hd_app_ne' in L2 by assumption.
      pose proof (infeasible_extend D d C L ceps seps (a1 ++ a) b [] HT Hd) as HX. rewrite !app_nil_r, <- app_assoc in HX. apply HX.
      apply (HB k1 l r1 lr); try assumption. exists a1, a. repeat split; assumption.
    + rewrite rev_app_distr in *. rewrite hd_app_ne' in L2 by now apply rev_ne.
      pose proof (infeasible_extend D d C L ceps seps (a1 ++ rev b) (rev a) [] HT Hd) as HX. rewrite !app_nil_r, <- app_assoc in HX. apply HX.
      apply (HB k1 r r1 rr); try assumption. exists a1, (rev b). repeat split; try assumption.
      * apply (same_dir_trans' _ b); [exact Sb|now right].
      * now apply rev_ne.
  - apply (HB k1 k2 r1 r2); try assumption. exists a1, b1. repeat split; assumption.
Qed.

Lemma step_ok sv st : pinv st -> goodl (live (ps_routes st)) -> (1 <= snd (fst sv) < N)%nat -> (1 <= snd sv < N)%nat ->
  exists pts brk, ps_step ceps seps D C L mk sv st = Some (pts, brk) /\ pinv (last_state pts st) /\
    goodl (live (ps_routes (last_state pts st))) /\ Forall point_ok pts /\
    (brk = true -> pts = [] /\ mk = false /\ D (snd (fst sv)) 0%nat + D 0%nat (snd sv) < D (snd (fst sv)) (snd sv)) /\
    (brk = false -> blocked (last_state pts st) (snd (fst sv)) (snd sv)) /\
    (triangle D -> (forall n, 0 <= d n) -> forall x y, blocked st x y -> blocked (last_state pts st) x y).
Proof.
  destruct sv as [[[s0 x0] i] j]. cbn [fst snd]. intros HI HG Hi Hj. unfold ps_step.
  destruct (negb mk && (D i 0%nat + D 0%nat j - D i j <? 0)) eqn:E0.
  { apply andb_prop in E0. exists [], true. split; [reflexivity|]. split; [exact HI|]. split; [exact HG|]. split; [constructor|].
    split; [intros _; split; [reflexivity|]; split; [destruct mk; [easy|reflexivity]|lia]|]. split; [discriminate|]. intros _ _ x y H. exact H. }
  assert (HS : mk = false -> D i j <= D i 0%nat + D 0%nat j) by (intros ->; cbn in E0; lia).
  destruct (nth_error (ps_end st) i) as [ei|] eqn:Ei; [|apply nth_error_None in Ei; rewrite (pi_elen _ HI) in Ei; lia].
  destruct (nth_error (ps_end st) j) as [ej|] eqn:Ej; [|apply nth_error_None in Ej; rewrite (pi_elen _ HI) in Ej; lia].
  assert (SKIP : blocked st i j -> exists pts brk, Some ([], false) = Some (pts, brk) /\ pinv (last_state pts st) /\
    goodl (live (ps_routes (last_state pts st))) /\ Forall point_ok pts /\
    (brk = true -> pts = [] /\ mk = false /\ D i 0%nat + D 0%nat j < D i j) /\
    (brk = false -> blocked (last_state pts st) i j) /\
    (triangle D -> (forall n, 0 <= d n) -> forall x y, blocked st x y -> blocked (last_state pts st) x y)).
  { intros HB. exists [], false. split; [reflexivity|]. split; [exact HI|]. split; [exact HG|]. split; [constructor|]. split; [discriminate|]. auto. }
  assert (NONE : (forall k1 k2, ei = Some k1 -> ej = Some k2 -> k1 = k2) -> blocked st i j).
  { intros H k1 k2 r1 r2 q Hk H1 H2 HJ. destruct (joined_idx _ _ _ _ _ _ _ _ HI H1 H2 HJ) as [J1 J2].
    exfalso. apply Hk, H; congruence. }
  destruct ei as [l|]; [|destruct ej; apply SKIP, NONE; discriminate].
  destruct ej as [r|]; [|apply SKIP, NONE; discriminate].
  destruct (Nat.eqb_spec l r) as [El|El]; [apply SKIP, NONE; congruence|].
  destruct (mergeable_intro st i j l r HI Hi Hj Ei Ej El) as (lr & rr & Nl & Nr & M).
  set (md := nth l (ps_dem st) 0 + nth r (ps_dem st) 0) in *.
  set (mc := nth l (ps_cost st) 0 - D 0%nat i + nth r (ps_cost st) 0 - D 0%nat j + D i j) in *.
  assert (JQ : forall k1 k2 r1 r2 q, nth_error (ps_routes st) k1 = Some (Some r1) -> nth_error (ps_routes st) k2 = Some (Some r2) ->
     joined r1 r2 i j q -> (is_set C = true -> demand d q = md) /\ (is_set L = true -> route_cost D q = mc)).
  { intros k1 k2 r1 r2 q H1 H2 HJ. destruct (joined_idx _ _ _ _ _ _ _ _ HI H1 H2 HJ) as [J1 J2].
    rewrite Ei in J1. rewrite Ej in J2. injection J1 as <-. injection J2 as <-.
    destruct HJ as (a & b & Sa & Sb & Na & Nb & La & Hb & ->). split.
    - intros HC. destruct (pi_dem _ HI HC) as [_ X]. unfold md. rewrite (X l r1 H1), (X r r2 H2), demand_app.
      now rewrite (same_dir_demand d r1 a Sa), (same_dir_demand d r2 b Sb).
    - intros HC. destruct (pi_cost _ HI HC) as [_ X]. unfold mc. rewrite (X l r1 H1), (X r r2 H2), join_cost by exact Hsym.
      rewrite (same_dir_cost D r1 a Hsym Sa), (same_dir_cost D r2 b Hsym Sb), La, Hb. reflexivity. }
  destruct (exceeds C ceps md) eqn:EC.
  { apply SKIP. intros k1 k2 r1 r2 q Hk H1 H2 HJ [F1 _]. destruct (JQ _ _ _ _ _ H1 H2 HJ) as [J1 _].
    apply exceeds_not_within in EC. destruct EC as [EC1 EC2]. apply EC2. now rewrite <- J1. }
  destruct (exceeds L seps mc) eqn:EL.
  { apply SKIP. intros k1 k2 r1 r2 q Hk H1 H2 HJ [_ F1]. destruct (JQ _ _ _ _ _ H1 H2 HJ) as [_ J1].
    apply exceeds_not_within in EL. destruct EL as [EC1 EC2]. apply EC2. now rewrite <- J1. }
  rewrite Nl, Nr. destruct (merge_points_ok _ _ _ _ _ _ _ _ _ _ _ HI M HG EC EL HS) as (PE & PO & PG).
  eexists _, false. split; [reflexivity|]. rewrite PE. pose proof (merged_inv _ _ _ _ _ _ _ _ _ _ _ HI M) as HI'.
  split; [exact HI'|]. split; [exact PG|]. split; [exact PO|]. split; [discriminate|]. split.
  - intros _ k1 k2 r1 r2 q Hk H1 H2 HJ _. pose proof (pinv_nodup _ HI') as ND.
    destruct M as [_ _ _ Hl Hr _ _ Sa Sb Na Nb La Hb _ _].
    set (a := if (hd 0 lr =? i)%nat then rev lr else lr) in *. set (b := if (last rr 0 =? j)%nat then rev rr else rr) in *.
    destruct HJ as (a1 & b1 & S1 & S2 & N1 & N2 & L1 & L2 & ->).
    assert (RL : nth_error (ps_routes (merged st l r a b md mc)) l = Some (Some (a ++ b))).
    { cbn [merged ps_routes]. rewrite nth_error_set_other by congruence. now apply (nth_error_set_same _ _ _ (Some lr)). }
    assert (I1 : In i r1). { apply (Permutation_in _ (same_dir_perm _ _ S1)). rewrite <- L1. now apply last_in. }
    assert (I2 : In j r2). { apply (Permutation_in _ (same_dir_perm _ _ S2)). rewrite <- L2. now apply hd_in. }
    assert (Ii : In i (a ++ b)) by (apply in_or_app; left; rewrite <- La; now apply last_in).
    assert (Ij : In j (a ++ b)) by (apply in_or_app; right; rewrite <- Hb; now apply hd_in).
    assert (k1 = l). { destruct (Nat.eq_dec k1 l); [assumption|exfalso]. exact (live_disjoint _ k1 l r1 _ i ND H1 RL n I1 Ii). }
    assert (k2 = l). { destruct (Nat.eq_dec k2 l); [assumption|exfalso]. exact (live_disjoint _ k2 l r2 _ j ND H2 RL n I2 Ij). }
    congruence.
  - intros HT Hd x y HB. now apply (blocked_merged st i j l r lr rr _ _ md mc x y HI M HT Hd).
Qed.

Lemma last_state_app p q st : last_state (p ++ q) st = last_state q (last_state p st).
Proof.
  unfold last_state. rewrite map_app. destruct q as [|y q]; [now rewrite app_nil_r|].
  generalize (map snd p) as l. intros l. cbn [map]. generalize (snd y), (map snd q). intros z m.
  assert (G : forall (m : list pstate) z d1 d2, last (z :: m) d1 = last (z :: m) d2).
  { clear. induction m as [|w m IH]; intros; [reflexivity|]. change (last (w :: m) d1 = last (w :: m) d2). apply IH. }
  rewrite (G m z (last l st) st). induction l as [|w l IH]; [reflexivity|]. cbn [app].
  change (last (w :: (l ++ z :: m)) st) with (match l ++ z :: m with [] => w | _ :: _ => last (l ++ z :: m) st end).
  rewrite IH. now destruct l.
Qed.

Lemma loop_ok savings : valid_pairs N savings -> forall st, pinv st -> goodl (live (ps_routes st)) ->
  exists pts, ps_loop ceps seps D C L mk savings st = Some pts /\ pinv (last_state pts st) /\
    goodl (live (ps_routes (last_state pts st))) /\ Forall point_ok pts /\
    (triangle D -> (forall n, 0 <= d n) ->
       (forall x y, blocked st x y -> blocked (last_state pts st) x y) /\
       exists done rest, savings = done ++ rest /\
         (forall s x i j, In (s, x, i, j) done -> blocked (last_state pts st) i j) /\
         (rest = [] \/ exists s x i j rest', rest = (s, x, i, j) :: rest' /\ mk = false /\ D i 0%nat + D 0%nat j < D i j)).
Proof.
  intros HV. induction savings as [|sv savings IH]; intros st HI HG.
  { exists []. split; [reflexivity|]. split; [exact HI|]. split; [exact HG|]. split; [constructor|]. intros HT Hd. split; [auto|].
    exists [], []. split; [reflexivity|]. split; [intros ? ? ? ? []|now left]. }
  assert (HV1 : (1 <= snd (fst sv) < N)%nat /\ (1 <= snd sv < N)%nat).
  { destruct sv as [[[s x] i] j]. apply (HV s x). now left. }
  destruct (step_ok sv st HI HG (proj1 HV1) (proj2 HV1)) as (pts & brk & E & HI' & HG' & HP & HB1 & HB2 & HB3).
  cbn [ps_loop]. rewrite E. destruct brk.
  - exists pts. split; [reflexivity|]. split; [exact HI'|]. split; [exact HG'|]. split; [exact HP|].
    intros HT Hd. split; [now apply HB3|]. destruct (HB1 eq_refl) as (_ & Hmk & Hs).
    exists [], (sv :: savings). split; [reflexivity|]. split; [intros ? ? ? ? []|]. right. destruct sv as [[[s x] i] j]. now exists s, x, i, j, savings.
  - destruct (IH) with (st := last_state pts st) as (pts' & E' & HI2 & HG2 & HP2 & HM); [|exact HI'|exact HG'|].
    { intros s x i j H. apply (HV s x). now right. }
    rewrite E'. exists (pts ++ pts'). rewrite last_state_app. split; [reflexivity|]. split; [exact HI2|]. split; [exact HG2|].
    split; [now apply Forall_app|]. intros HT Hd. destruct (HM HT Hd) as (K1 & done & rest & K2 & K3 & K4). split.
    + intros x y H. apply K1. now apply HB3.
    + exists (sv :: done), rest. split; [now rewrite K2|]. split; [|exact K4].
      intros s x i j [->|H]; [|now apply (K3 s x)]. apply K1. now apply HB2.
Qed.
End PS.
