(** * Wren and Holliday: disentangling two routes *)
From Verif Require Import Spec Spec_rfcs Spec_ls Spec_inter Spec_savings PyBase M_util M_routedata M_intra M_inter M_driver Spec_driver M_psavings M_ssavings M_savfam M_sweep
     P_base P_cvrp P_rd P_scan P_intra P_intra2 P_inter P_inter2 P_inter3 P_sweep P_sweep2 P_sweep3 P_sweep5 P_driver P_driver2 P_mj2 M_wh P_wh P_wh2 P_wh3 P_wh4.
From Coq Require Import ZifyBool ZifyNat Lia List Permutation.
Import ListNotations.
Local Open Scope Z_scope.

Lemma F2_firstn {A B} (R : A -> B -> Prop) : forall k l l', Forall2 R l l' -> Forall2 R (firstn k l) (firstn k l').
Proof. induction k as [|k IH]; intros l l' H; [constructor|]. destruct H; cbn [firstn]; constructor; auto. Qed.
Lemma F2_skipn {A B} (R : A -> B -> Prop) : forall k l l', Forall2 R l l' -> Forall2 R (skipn k l) (skipn k l').
Proof. induction k as [|k IH]; intros l l' H; [exact H|]. destruct H; cbn [skipn]; [constructor|]. auto. Qed.
Lemma F_firstn {A} (P : A -> Prop) k l : Forall P l -> Forall P (firstn k l).
Proof. intros H. rewrite <- (firstn_skipn k l) in H. now apply Forall_app in H. Qed.

Section Sub.
Variables (eps : Z) (N : nat) (D : matrix) (d : demands) (C L : limit).
Notation feas := (feasible D d C L eps eps).
Hypothesis Halone : served_alone N D d C L eps eps.
Hypothesis Hd : forall n, 0 <= d n.

(** A sweep in one direction from one position *)
Lemma one_sweep (ord : list nat) (ccw : bool) (p : nat) : NoDup ord -> (forall x, In x ord -> (1 <= x < N)%nat) -> (p < length ord)%nat ->
  exists f0 rs, (forall fuel, (f0 <= fuel)%nat ->
      sweep_init eps eps D d C L false (in_sweep_order D) ord N [] (if ccw then CCW else CW) (SeedPositions [p]) fuel = Some (SwReturns (Some (encode rs)))) /\
    (forall fuel r, sweep_init eps eps D d C L false (in_sweep_order D) ord N [] (if ccw then CCW else CW) (SeedPositions [p]) fuel = Some r -> r = SwReturns (Some (encode rs))) /\
    Permutation (concat rs) ord /\ Forall feas rs /\ Forall (fun r => r <> []) rs.
Proof.
  intros Hnd Hc Hp. pose proof (in_sweep_order_solver N D) as Hf.
  destruct (sweep_ok eps eps N D d C L (in_sweep_order D) ord Hf Halone Hnd Hc (fun i _ => Hd i) ccw p Hp) as (f0 & routes & E & rs & F & P).
  assert (Es : sweep_sol routes = encode rs) by (eapply sweep_sol_ok; try eassumption; intros; apply Hd).
  assert (Eq : forall fuel, sweep_init eps eps D d C L false (in_sweep_order D) ord N [] (if ccw then CCW else CW) (SeedPositions [p]) fuel =
     match do_one_sweep eps eps D d C L (in_sweep_order D) ord ccw false p fuel with
     | None => None | Some None => Some SwRaises | Some (Some routes) => Some (SwReturns (Some (sweep_sol routes))) end).
  { intros fuel. unfold sweep_init. cbn [sw_starts]. destruct ccw; unfold sw_runs; cbn [sw_incs flat_map map app sw_candidates];
    (destruct (do_one_sweep _ _ _ _ _ _ _ _ _ _ _ fuel) as [[r|]|]; reflexivity). }
  exists f0, rs. split; [intros fuel Hfu; rewrite Eq, E by exact Hfu; now rewrite Es|]. split.
  { intros fuel r Hr. rewrite Eq in Hr. destruct (do_one_sweep eps eps D d C L (in_sweep_order D) ord ccw false p fuel) as [x|] eqn:E1; [|discriminate].
    apply (sweep_mono _ _ _ _ _ _ _ _ _ _ fuel (Nat.max f0 fuel)) in E1; [|lia]. rewrite E in E1 by lia. injection E1 as <-. rewrite Es in Hr. now injection Hr as <-. }
  split; [exact P|]. clear - F. split; induction F as [|r l rr ll H F IH]; constructor; try exact IH; apply H.
Qed.
End Sub.

Section Disentangle.
Variables (eps : Z) (N : nat) (D : matrix) (d : demands) (C L : limit).
Variables (order : list nat) (overlap : list nat -> list nat -> bool) (gap : list nat -> nat) (set_order : list nat -> list nat).
Notation exact := (exact_rd D d C).
Notation feas := (feasible D d C L eps eps).
Notation cost := (routes_cost D).
Notation ok := (ok eps D d C L).
Hypothesis Heps : 0 <= eps.
Hypothesis Hsym : symmetric D.
Hypothesis HT : triangle D.
Hypothesis Hd : forall n, 0 <= d n.
Hypothesis Hd0 : d 0%nat = 0.
Hypothesis HD0 : D 0%nat 0%nat = 0.
Hypothesis Hset : forall l, Permutation (set_order l) l.
Hypothesis Halone : served_alone N D d C L eps eps.
Hypothesis Horder : Permutation order (seq 1 (N - 1)).
Hypothesis Hgap : forall l, l <> [] -> (gap l < length l)%nat.
Hypothesis Hnil : feas [].

Lemma order_cust x : In x order -> (1 <= x < N)%nat.
Proof. intros H. apply (Permutation_in _ Horder) in H. apply in_seq in H. lia. Qed.
Lemma order_nodup : NoDup order.
Proof. eapply Permutation_NoDup; [symmetry; exact Horder|apply seq_NoDup]. Qed.
Lemma cust_order x : (1 <= x < N)%nat -> In x order.
Proof. intros H. eapply Permutation_in; [symmetry; exact Horder|]. apply in_seq. lia. Qed.

Lemma et_perm l : NoDup l -> (forall x, In x l -> (1 <= x < N)%nat) -> Permutation (filter (fun n => mem_nat n l) order) l.
Proof.
  intros H1 H2. apply NoDup_Permutation; [apply NoDup_filter, order_nodup|exact H1|]. intros x. rewrite filter_In, mem_nat_in. split; [tauto|].
  intros H. split; [now apply cust_order, H2|exact H].
Qed.

Lemma entangled_ok r1 r2 rd1 rd2 : exact r1 rd1 -> exact r2 rd2 -> r1 ++ r2 <> [] -> NoDup (r1 ++ r2) -> (forall x, In x (r1 ++ r2) -> (1 <= x < N)%nat) ->
  exists f0, (forall fuel, (f0 <= fuel)%nat -> entangled_routes eps N D d C L order gap set_order fuel rd1 rd2 <> None) /\
  (exists z, forall fuel, (f0 <= fuel)%nat -> entangled_routes eps N D d C L order gap set_order fuel rd1 rd2 = z) /\
  forall fuel z, entangled_routes eps N D d C L order gap set_order fuel rd1 rd2 = Some z ->
    exists rs' om' rds', z = Some (rds', om') /\ rok eps D d C L rs' om' rds' /\ Permutation (concat rs' ++ om') (r1 ++ r2).
Proof.
  intros X1 X2 Hne Hnd Hcu. set (et := filter (fun n => mem_nat n (r1 ++ r2)) order).
  assert (HP : Permutation et (r1 ++ r2)) by now apply et_perm.
  assert (Het : et <> []) by (intros E; rewrite E in HP; apply Permutation_nil in HP; congruence).
  destruct (one_sweep eps N D d C L Halone Hd et false (gap et)) as (f1 & rs & E1 & U1 & P1 & F1 & N1).
  { apply NoDup_filter, order_nodup. } { intros x Hx. apply filter_In in Hx as [Hx _]. now apply order_cust. } { now apply Hgap. }
  assert (Hdist : distinct_customers rs).
  { assert (HP2 : Permutation (concat rs) (r1 ++ r2)) by (etransitivity; eassumption). split; [eapply Permutation_NoDup; [symmetry; exact HP2|exact Hnd]|].
    apply Forall_forall. intros x Hx. apply (Permutation_in _ HP2) in Hx. apply Hcu in Hx. lia. }
  pose proof (init_exact D d C rs Hd0 Hdist) as HI.
  assert (Ef : filter nonempty rs = rs).
  { clear - N1. induction N1 as [|r rs H N1 IH]; [reflexivity|]. cbn [filter]. destruct r; [easy|]. cbn. now rewrite IH. }
  rewrite Ef in HI. set (rds := from_solution (encode rs) D d) in *.
  assert (Hrok : rok eps D d C L (firstn 2 rs) (concat (skipn 2 rs)) (firstn 2 rds)).
  { split; [now apply F2_firstn|]. split; [now apply F_firstn|]. unfold distinct_customers. rewrite concat_app. cbn [concat]. rewrite app_nil_r, <- concat_app, firstn_skipn. exact Hdist. }
  assert (Efl : flat_map inner (skipn 2 rds) = concat (skipn 2 rs)).
  { assert (G : Forall2 exact (skipn 2 rs) (skipn 2 rds)) by (apply F2_skipn; exact HI). clear - G. induction G as [|r rd l l' H G IH]; [reflexivity|].
    cbn [flat_map concat]. rewrite IH. f_equal. apply inner_wrap. apply H. }
  assert (Eq : forall fuel, entangled_routes eps N D d C L order gap set_order fuel rd1 rd2 =
    match sweep_init eps eps D d C L false (in_sweep_order D) et N [] CW (SeedPositions [gap et]) fuel with
    | None => None
    | Some _ => option_map Some (refine eps D d C L set_order fuel (firstn 2 rds) (concat (skipn 2 rs))) end).
  { intros fuel. unfold entangled_routes. rewrite (inner_wrap r1 rd1 (proj1 X1)), (inner_wrap r2 rd2 (proj1 X2)). fold et.
    destruct (sweep_init _ _ _ _ _ _ _ _ et _ _ _ _ fuel) as [z|] eqn:Ez; [|reflexivity]. rewrite (U1 fuel z Ez). fold rds. now rewrite Efl. }
  destruct (refine_ok eps D d C L Heps Hsym HT Hd set_order Hset _ _ _ Hrok) as (f2 & rs' & om' & rds' & E2 & _).
  exists (Nat.max f1 f2). split; [|split].
  - intros fuel Hf. rewrite Eq, E1 by lia. rewrite E2 by lia. discriminate.
  - exists (Some (Some (rds', om'))). intros fuel Hf. rewrite Eq, E1 by lia. now rewrite E2 by lia.
  - intros fuel z Hz. rewrite Eq in Hz. destruct (sweep_init _ _ _ _ _ _ _ _ et _ _ _ _ fuel); [|discriminate].
    destruct (refine _ _ _ _ _ _ fuel _ _) as [[rds3 om3]|] eqn:E3; [|discriminate]. injection Hz as <-.
    destruct (refine_spec eps D d C L Heps Hsym HT Hd set_order Hset _ _ _ _ _ _ Hrok E3) as (rs3 & A1 & _ & A3). exists rs3, om3, rds3. split; [reflexivity|]. split; [exact A1|].
    rewrite A3, <- concat_app, firstn_skipn, P1. exact HP.
Qed.

(** Fewer routes are in use, or not more and the cost is not larger *)
Definition no_worse (rs rs' : list (list nat)) : Prop := ne rs' < ne rs \/ (ne rs' <= ne rs /\ cost rs' <= cost rs).
Definition better (rs rs' : list (list nat)) : Prop := ne rs' < ne rs \/ (ne rs' <= ne rs /\ cost rs' < cost rs).
Lemma no_worse_refl rs : no_worse rs rs.
Proof using Type. clear. right. lia. Qed.
Lemma no_worse_trans a b c : no_worse a b -> no_worse b c -> no_worse a c.
Proof. clear. unfold no_worse. lia. Qed.
Lemma better_trans a b c : better a b -> no_worse b c -> better a c.
Proof. clear. unfold no_worse, better. lia. Qed.
Lemma trans_better a b c : no_worse a b -> better b c -> better a c.
Proof. clear. unfold no_worse, better. lia. Qed.
Lemma better_no_worse a b : better a b -> no_worse a b.
Proof. clear. unfold no_worse, better. lia. Qed.

Definition known (cs : list nat) : Prop := forall x, In x cs -> (1 <= x < N)%nat.
Definition dstep (cs : list nat) (st st' : wst) : Prop := forall rs, ok cs rs st -> exists rs', ok cs rs' st' /\ length rs' = length rs /\
  Permutation (concat rs') (concat rs) /\ no_worse rs rs'.
Lemma dstep_refl cs st : dstep cs st st.
Proof. intros rs H. exists rs. split; [exact H|]. split; [reflexivity|]. split; [reflexivity|apply no_worse_refl]. Qed.
Lemma dstep_trans cs a b c : dstep cs a b -> dstep cs b c -> dstep cs a c.
Proof.
  intros H1 H2 rs H. destruct (H1 rs H) as (r1 & A1 & A2 & A3 & A4). destruct (H2 r1 A1) as (r2 & B1 & B2 & B3 & B4).
  exists r2. split; [exact B1|]. split; [congruence|]. split; [etransitivity; eassumption|eapply no_worse_trans; eassumption].
Qed.

(** The two routes of a pair, when neither is empty *)
Lemma pair_facts cs rs st i j : known cs -> ok cs rs st -> i <> j -> (i < length (ws_routes st))%nat -> (j < length (ws_routes st))%nat ->
  (rd_is_empty (route_at i st) || rd_is_empty (route_at j st))%bool = false ->
  exact (nthr rs i) (route_at i st) /\ exact (nthr rs j) (route_at j st) /\ nthr rs i <> [] /\ nthr rs j <> [] /\
  NoDup (nthr rs i ++ nthr rs j) /\ (forall x, In x (nthr rs i ++ nthr rs j) -> (1 <= x < N)%nat).
Proof.
  intros Hk Ho Hij Hi Hj He. pose proof (ok_length _ _ _ _ _ _ _ _ Ho) as Hl. destruct Ho as (HF & HD & _ & Hc & _).
  pose proof (Forall2_nth_rel _ _ _ i HF ltac:(lia)) as X1. pose proof (Forall2_nth_rel _ _ _ j HF ltac:(lia)) as X2.
  apply orb_false_iff in He as [H1 H2].
  assert (Y1 : exact (nthr rs i) (route_at i st)) by exact X1. assert (Y2 : exact (nthr rs j) (route_at j st)) by exact X2.
  split; [exact Y1|]. split; [exact Y2|].
  rewrite (empty_iff _ _ (proj1 Y1)) in H1. rewrite (empty_iff _ _ (proj1 Y2)) in H2.
  split; [intros E; rewrite E in H1; discriminate|]. split; [intros E; rewrite E in H2; discriminate|].
  assert (Hin : forall k x, (k < length rs)%nat -> In x (nthr rs k) -> In x (concat rs)).
  { intros k x Hk' Hx. apply in_concat. exists (nthr rs k). split; [now apply nth_In|exact Hx]. }
  split.
  - assert (G : distinct_customers (map (nthr rs) [i; j])).
    { apply dist_select; [repeat constructor; cbn; intuition|intros k [<-|[<-|[]]]; lia|exact HD]. }
    destruct G as [G _]. cbn [map concat] in G. now rewrite app_nil_r in G.
  - intros x Hx. apply Hk, Hc. apply in_app_or in Hx as [Hx|Hx]; eapply Hin; try exact Hx; lia.
Qed.

Lemma disentangle_at_ok cs fuel i j st : known cs -> i <> j -> (i < length (ws_routes st))%nat -> (j < length (ws_routes st))%nat ->
  dstep cs st (fst (disentangle_at eps N D d C L order overlap gap set_order fuel [i; j] st)).
Proof.
  intros Hk Hij Hi Hj rs Ho. unfold disentangle_at. destruct (_ || _)%bool eqn:He; [now apply (dstep_refl cs st)|].
  destruct (overlap _ _); [|now apply (dstep_refl cs st)].
  destruct (pair_facts cs rs st i j Hk Ho Hij Hi Hj He) as (X1 & X2 & N1 & N2 & HN & HC).
  destruct (entangled_ok _ _ _ _ X1 X2) as (f0 & _ & _ & G); [intros E; apply app_eq_nil in E; tauto|exact HN|exact HC|].
  unfold disentangle_pair. destruct (entangled_routes _ _ _ _ _ _ _ _ _ fuel _ _) as [z|] eqn:E; [|now apply (dstep_refl cs st)].
  destruct (G fuel z E) as (rs' & om' & rds' & -> & (R1 & R2 & R3) & HP). pose proof (ok_length _ _ _ _ _ _ _ _ Ho) as Hl.
  assert (Hlt : forall k, In k [i; j] -> (k < length rs)%nat) by (intros k [<-|[<-|[]]]; lia).
  assert (HNd : NoDup [i; j]) by (repeat constructor; cbn; intuition).
  assert (HR : forall ra rb a b, exact ra a -> exact rb b -> Permutation (ra ++ rb) (nthr rs i ++ nthr rs j) -> feas ra -> feas rb ->
     no_worse rs (upd rs [i; j] [ra; rb]) -> exists rs', ok cs rs' (assign j b (assign i a st)) /\ length rs' = length rs /\ Permutation (concat rs') (concat rs) /\ no_worse rs rs').
  { intros ra rb a b Y1 Y2 HP' Fa Fb Hw.
    destruct (replace_step eps D d C L cs rs st [i; j] [ra; rb] [a; b] Ho HNd Hlt) as (Z1 & Z2 & Z3); [constructor; [exact Y1|constructor; [exact Y2|constructor]]|reflexivity| |constructor; [exact Fa|constructor; [exact Fb|constructor]]|].
    { cbn [concat map]. now rewrite !app_nil_r. }
    exists (upd rs [i; j] [ra; rb]). now split. }
  assert (Hne : forall ra rb, ne (upd rs [i; j] [ra; rb]) = ne rs - 2 + ne [ra; rb]).
  { intros ra rb. unfold ne. rewrite upd_sum; [|exact HNd|exact Hlt|reflexivity]. cbn [map]. unfold ne1. destruct (nthr rs i); [easy|]. destruct (nthr rs j); [easy|]. cbn. lia. }
  destruct R1 as [|ra a rs1 rds1 Ya R1]; [now apply (dstep_refl cs st)|].
  destruct R1 as [|rb b rs1 rds1 Yb R1].
  - destruct om' as [|x om']; [|now apply (dstep_refl cs st)]. cbn [fst]. inversion R2; subst. cbn [concat app] in HP. rewrite !app_nil_r in HP.
    apply (HR ra [] a empty_rd); [exact Ya|now apply empty_exact|now rewrite app_nil_r|assumption|exact Hnil|]. left. rewrite Hne. clear. destruct ra; cbn; lia.
  - destruct R1 as [|rc c rs2 rds2 Yc R1]; [|now apply (dstep_refl cs st)]. destruct om' as [|x om']; [|now apply (dstep_refl cs st)].
    destruct (_ <? _) eqn:Ec; [|now apply (dstep_refl cs st)]. cbn [fst]. inversion R2 as [|? ? F1 F2]; subst. inversion F2; subst. cbn [concat app] in HP. rewrite !app_nil_r in HP.
    apply (HR ra rb a b); try assumption. right. rewrite Hne. split; [clear; destruct ra, rb; cbn; lia|].
    unfold routes_cost. rewrite upd_sum; [|exact HNd|exact Hlt|reflexivity]. cbn [map sumZ fold_right]. apply Z.ltb_lt in Ec.
    destruct X1 as (_ & X1 & _), X2 as (_ & X2 & _), Ya as (_ & Ya & _), Yb as (_ & Yb & _). lia.
Qed.
Lemma disentangle_at_total cs rs i j st : known cs -> ok cs rs st -> i <> j -> (i < length (ws_routes st))%nat -> (j < length (ws_routes st))%nat ->
  exists f0 st', forall fuel, (f0 <= fuel)%nat -> disentangle_at eps N D d C L order overlap gap set_order fuel [i; j] st = (st', Ended false).
Proof.
  intros Hk Ho Hij Hi Hj. unfold disentangle_at. destruct (_ || _)%bool eqn:He; [now exists 0%nat, st|].
  destruct (overlap _ _); [|now exists 0%nat, st].
  destruct (pair_facts cs rs st i j Hk Ho Hij Hi Hj He) as (X1 & X2 & N1 & N2 & HN & HC).
  destruct (entangled_ok _ _ _ _ X1 X2) as (f0 & Hn & (z & Hz) & G); [intros E; apply app_eq_nil in E; tauto|exact HN|exact HC|].
  unfold disentangle_pair. pose proof (Hn f0 (Nat.le_refl _)) as Hn0. rewrite (Hz f0 (Nat.le_refl _)) in Hn0. destruct z as [z|]; [|easy].
  exists f0. destruct (G f0 z (Hz f0 (Nat.le_refl _))) as (rs' & om' & rds' & -> & _).
  destruct rds' as [|a [|b [|c l]]], om' as [|x om'].
  4: { eexists. intros fuel Hf. rewrite (Hz fuel Hf). reflexivity. }
  all: try (eexists; intros fuel Hf; rewrite (Hz fuel Hf); reflexivity).
  destruct (rd_cost a + rd_cost b + eps <? rd_cost (route_at i st) + rd_cost (route_at j st)) eqn:Ec;
    eexists; intros fuel Hf; rewrite (Hz fuel Hf), Ec; reflexivity.
Qed.
End Disentangle.
