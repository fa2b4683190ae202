(** * The generalized assignment heuristic: assignments, tours and the invariant of the search *)
From Verif Require Import Spec_rfcs Spec_inter Spec_savings PyBase M_util M_psavings P_base P_util M_gap Spec_gap Spec.
From Coq Require Import ZifyBool ZifyNat Lia List Permutation.
Import ListNotations.
Local Open Scope Z_scope.

Lemma set_true (x : limit) : is_set x = true <-> limit_set x.
Proof. unfold is_set, truthy, limit_set. destruct x as [v|]; [|easy]. destruct (Z.eqb_spec v 0); split; intros; congruence. Qed.
Lemma set_within (x : limit) eps v : is_set x = false -> within x eps v.
Proof. unfold is_set, truthy, within. destruct x as [c|]; [|easy]. destruct (Z.eqb_spec c 0); [congruence|discriminate]. Qed.
Lemma within_more lim e e' x : e <= e' -> within lim e x -> within lim e' x.
Proof. destruct lim as [c|]; cbn; [|easy]. intros H W Hc. specialize (W Hc). lia. Qed.
Lemma concat_perms (a b : list (list nat)) : Forall2 (@Permutation nat) a b -> Permutation (concat a) (concat b).
Proof. induction 1; cbn; [reflexivity|now apply Permutation_app]. Qed.
Lemma sum_perm (g : nat -> Z) l l' : Permutation l l' -> sumZ (map g l) = sumZ (map g l').
Proof. unfold sumZ. induction 1; cbn [map fold_right] in *; lia. Qed.
Lemma sum_app (g : nat -> Z) l l' : sumZ (map g (l ++ l')) = sumZ (map g l) + sumZ (map g l').
Proof. unfold sumZ. induction l; cbn [map fold_right app] in *; lia. Qed.

(** ** Assignments *)
Lemma to_assignments_on Y N K : to_assignments Y N K = map (on_route Y N) (seq 0 K).
Proof. reflexivity. Qed.
Lemma on_route_in Y N k i : In i (on_route Y N k) <-> (1 <= i < N)%nat /\ Y i k = true.
Proof. unfold on_route. rewrite filter_In, in_seq. intuition lia. Qed.
Lemma on_route_nodup Y N k : NoDup (on_route Y N k).
Proof. apply NoDup_filter, seq_NoDup. Qed.
Lemma assigned_nodup Y N : forall ks, NoDup ks -> (forall i k k', (1 <= i < N)%nat -> In k ks -> In k' ks -> Y i k = true -> Y i k' = true -> k = k') ->
  NoDup (concat (map (on_route Y N) ks)).
Proof.
  induction ks as [|k ks IH]; intros Hn H; [constructor|]. inversion Hn as [|? ? N1 N2]; subst. cbn [map concat].
  assert (IH' : NoDup (concat (map (on_route Y N) ks))) by (apply IH; [exact N2|]; intros i a b Hi Ha Hb; apply H; cbn; auto).
  pose proof (on_route_nodup Y N k) as N3. induction (on_route Y N k) as [|x l IHl] eqn:E in N3, H |- *; [exact IH'|].
  assert (G : forall l, NoDup l -> (forall x, In x l -> In x (on_route Y N k)) -> NoDup (l ++ concat (map (on_route Y N) ks))).
  { clear - IH' H N1. induction l as [|y l IH]; intros Hd Hl; [exact IH'|]. inversion Hd; subst. cbn. constructor; [|apply IH; [assumption|]; intros z Hz; apply Hl; now right].
    rewrite in_app_iff. intros [Hy|Hy]; [contradiction|]. apply in_concat in Hy. destruct Hy as (r & Hr & Hy). apply in_map_iff in Hr. destruct Hr as (k' & <- & Hk').
    apply on_route_in in Hy. specialize (Hl y (or_introl eq_refl)). apply on_route_in in Hl.
    assert (k = k') by (apply (H y); cbn; tauto). congruence. }
  apply G; [exact N3|]. intros y Hy. now rewrite E.
Qed.
Lemma hard_covers p Y : hard p Y -> Permutation (concat (to_assignments Y (gp_N p) (gp_K p))) (seq 1 (gp_N p - 1)).
Proof.
  intros [H1 _]. rewrite to_assignments_on. apply NoDup_Permutation; [|apply seq_NoDup|].
  - apply assigned_nodup; [apply seq_NoDup|]. intros i k k' Hi Hk Hk' E E'. apply in_seq in Hk, Hk'. destruct (H1 i Hi) as (k0 & _ & _ & U).
    rewrite (U k), (U k'); auto; lia.
  - intros i. rewrite in_concat, in_seq. split.
    + intros (r & Hr & Hi). apply in_map_iff in Hr. destruct Hr as (k & <- & _). apply on_route_in in Hi. lia.
    + intros Hi. destruct (H1 i ltac:(lia)) as (k & Hk & E & _). exists (on_route Y (gp_N p) k). split; [apply in_map, in_seq; lia|]. apply on_route_in. split; [lia|exact E].
Qed.

(** ** Tours *)
Section Tours.
Variables (eps : Z) (N : nat) (D : matrix) (d : demands) (C L : limit) (f : tsp).
Hypothesis Heps : 0 <= eps.
Hypothesis Hd0 : 0 <= d 0%nat.
Hypothesis Hf : solver N D f.
Notation tours := (tours eps d C L f).
Definition valid (a : list nat) : Prop := NoDup a /\ forall i, In i a -> (1 <= i < N)%nat.

Lemma tours_spec : forall a sol sf sk sv r, Forall valid a -> tours a sol sf sk sv = Some r ->
  exists rs, Forall2 (@Permutation nat) rs (filter nonempty a) /\
    r = (sol ++ flat_map (fun r => r ++ [0%nat]) rs, sf + routes_cost D rs, (sk + length rs)%nat, sv ++ concat a) /\
    Forall (fun r => within L eps (route_cost D r)) rs /\ (is_set L = true -> Forall (fun r => within C eps (demand d r)) rs).
Proof.
  induction a as [|a t IH]; intros sol sf sk sv r HV E.
  - injection E as <-. exists []. cbn. rewrite !app_nil_r, Nat.add_0_r. repeat split; try constructor. unfold routes_cost. cbn. now rewrite Z.add_0_r.
  - inversion HV as [|? ? V1 V2]; subst. destruct a as [|x a]; cbn [M_gap.tours] in E.
    + destruct (IH _ _ _ _ _ V2 E) as (rs & F & Er & FL & FC). exists rs. cbn [filter nonempty concat app]. auto.
    + destruct (Hf (x :: a)) as (l' & Ef & HP); [discriminate|apply V1|apply V1|]. rewrite Ef in E.
      destruct (is_set L && exceeds C eps (totald (0%nat :: l' ++ [0%nat]) d)) eqn:EC; [discriminate|].
      destruct (exceeds L eps (route_cost D l')) eqn:EL; [discriminate|]. apply exceeds_within in EL.
      destruct (IH _ _ _ _ _ V2 E) as (rs & F & Er & FL & FC). exists (l' :: rs). cbn [filter nonempty]. split; [now constructor|]. split; [|split; [now constructor|]].
      * rewrite Er. unfold slice_from. cbn [skipn flat_map map concat length]. unfold routes_cost. cbn [map sumZ fold_right].
        rewrite <- !app_assoc, Z.add_assoc, <- Nat.add_assoc. reflexivity.
      * intros HL. constructor; [|now apply FC]. rewrite HL in EC. cbn [andb] in EC. apply exceeds_within in EC.
        destruct C as [c|]; [|exact I]. intros Hc. specialize (EC Hc). unfold totald in EC. cbn [map sumZ fold_right] in EC.
        change (0%nat :: l' ++ [0%nat]) with ([0%nat] ++ l' ++ [0%nat]) in EC. rewrite !sum_app in EC. cbn in EC. unfold demand. lia.
Qed.
Lemma tours_free : is_set L = false -> forall a sol sf sk sv, exists r, tours a sol sf sk sv = Some r.
Proof.
  intros HL. induction a as [|[|x a] t IH]; intros sol sf sk sv; cbn [M_gap.tours]; [eauto|apply IH|].
  destruct (f (0%nat :: x :: a)) as [route l]. rewrite HL. cbn [andb].
  assert (E : exceeds L eps l = false) by (apply exceeds_within, set_within, HL). rewrite E. apply IH.
Qed.

(** What an evaluated solution is, whatever the assignments *)
Lemma evaluate_spec a s : Forall valid a -> evaluate eps N d C L f a = Some s ->
  exists rs, Forall2 (@Permutation nat) rs (filter nonempty a) /\ s = (encode rs, routes_cost D rs, length rs) /\
    Forall (fun r => within L eps (route_cost D r)) rs /\ (is_set L = true -> Forall (fun r => within C eps (demand d r)) rs) /\
    (is_set L = true -> forall i, (1 <= i < N)%nat -> In i (concat rs)).
Proof.
  intros HV E. unfold evaluate in E. destruct a as [|a0 t]; [discriminate|]. remember (a0 :: t) as a eqn:Ea.
  destruct (tours a [0%nat] 0 0 [0%nat]) as [[[[sol sf] sk] sv]|] eqn:ET; [|discriminate].
  destruct (tours_spec _ _ _ _ _ _ HV ET) as (rs & F & Er & FL & FC). injection Er as -> -> -> ->.
  destruct (is_set L && _) eqn:EN; [discriminate|]. injection E as <-. exists rs. split; [exact F|]. split; [cbn; reflexivity|]. split; [exact FL|]. split; [exact FC|].
  intros HL i Hi. rewrite HL in EN. cbn [andb] in EN. apply Nat.ltb_ge in EN.
  assert (HP : Permutation (concat rs) (concat a)) by (rewrite (concat_perms _ _ F), concat_filter_nonempty; reflexivity).
  apply (Permutation_in _ (Permutation_sym HP)).
  assert (Hin : incl (seq 0 N) (nodup Nat.eq_dec ([0%nat] ++ concat a))).
  { apply NoDup_length_incl; [apply NoDup_nodup|rewrite seq_length; exact EN|]. intros x Hx. apply nodup_In in Hx. apply in_seq. cbn in Hx. destruct Hx as [<-|Hx]; [lia|].
    apply in_concat in Hx. destruct Hx as (r & Hr & Hx). rewrite Forall_forall in HV. apply (HV r Hr) in Hx. lia. }
  specialize (Hin i). rewrite in_seq, nodup_In in Hin. cbn in Hin. destruct (Hin ltac:(lia)); [lia|assumption].
Qed.
Lemma assign_valid Y K : Forall valid (to_assignments Y N K).
Proof. rewrite to_assignments_on. apply Forall_forall. intros r Hr. apply in_map_iff in Hr. destruct Hr as (k & <- & _). split; [apply on_route_nodup|]. intros i Hi. now apply on_route_in in Hi. Qed.
Lemma filter_length_le {A} (g : A -> bool) l : (length (filter g l) <= length l)%nat.
Proof. induction l as [|x l IH]; cbn; [lia|]. destruct (g x); cbn; lia. Qed.
Lemma F2_len {A B} (R : A -> B -> Prop) l l' : Forall2 R l l' -> length l = length l'.
Proof. induction 1; cbn; congruence. Qed.
Lemma few_routes Y K rs : Forall2 (@Permutation nat) rs (filter nonempty (to_assignments Y N K)) -> (length rs <= K)%nat.
Proof. intros F. rewrite (F2_len _ _ _ F). etransitivity; [apply filter_length_le|]. rewrite to_assignments_on, map_length, seq_length. lia. Qed.
Lemma hard_serves2 p Y s : gp_N p = N -> gp_d p = d -> gp_C p = C -> hard p Y -> evaluate eps N d C L f (to_assignments Y N (gp_K p)) = Some s ->
  exists rs, s = (encode rs, routes_cost D rs, length rs) /\ serves N D d C L eps eps rs /\ (length rs <= gp_K p)%nat /\
    Forall2 (@Permutation nat) rs (filter nonempty (to_assignments Y N (gp_K p))).
Proof.
  intros EN Ed EC HH E. destruct (evaluate_spec _ _ (assign_valid Y (gp_K p)) E) as (rs & F & Es & FL & _ & _). exists rs. split; [exact Es|]. split; [|split; [eapply few_routes, F|exact F]].
  pose proof (hard_covers p Y HH) as HP. rewrite EN in HP. destruct HH as [_ HC]. rewrite EN, Ed, EC in HC. split; [|split].
  - unfold covers. rewrite <- HP, (concat_perms _ _ F), concat_filter_nonempty. reflexivity.
  - clear - F. assert (G : Forall (fun r : list nat => r <> []) (filter nonempty (to_assignments Y N (gp_K p)))).
    { apply Forall_forall. intros r Hr. apply filter_In in Hr. intros ->. now destruct Hr. }
    induction F as [|r r' rs rs' HP _ IH]; constructor; inversion G; subst; [|auto]. intros ->. apply Permutation_nil in HP. congruence.
  - assert (G : Forall (fun r => within C eps (demand d r)) (filter nonempty (to_assignments Y N (gp_K p)))).
    { apply Forall_forall. intros r Hr. apply filter_In in Hr. destruct Hr as [Hr _]. rewrite to_assignments_on in Hr. apply in_map_iff in Hr. destruct Hr as (k & <- & Hk). apply in_seq in Hk.
      eapply within_more; [|apply HC; lia]. exact Heps. }
    clear - F FL G. induction F as [|r r' rs rs' HP _ IH]; constructor; inversion FL; inversion G; subst; [|auto]. split; [|assumption].
    unfold demand in *. now rewrite (sum_perm d _ _ HP).
Qed.
Lemma hard_serves p Y s : gp_N p = N -> gp_d p = d -> gp_C p = C -> hard p Y -> evaluate eps N d C L f (to_assignments Y N (gp_K p)) = Some s ->
  exists rs, s = (encode rs, routes_cost D rs, length rs) /\ serves N D d C L eps eps rs /\ (length rs <= gp_K p)%nat.
Proof. intros EN Ed EC HH E. destruct (hard_serves2 p Y s EN Ed EC HH E) as (rs & H1 & H2 & H3 & _). eauto. Qed.
End Tours.
