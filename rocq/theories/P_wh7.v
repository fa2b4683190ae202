(** * Wren and Holliday: the loop keeps the customers, and ends when routes are to be saved *)
From Verif Require Import Spec_rfcs Spec_ls Spec_inter Spec_savings PyBase M_util M_routedata M_intra M_inter M_driver Spec_driver M_psavings M_ssavings M_savfam M_sweep
     P_base P_cvrp P_rd P_util P_scan P_intra P_intra2 P_inter P_inter2 P_inter3 P_sweep P_sweep2 P_sweep3 P_sweep5 P_driver P_driver2 P_mj2 M_wh P_wh P_wh2 P_wh3 P_wh4 P_wh5 P_wh6 Spec.
From Coq Require Import ZifyBool ZifyNat Lia List Permutation.
Import ListNotations.
Local Open Scope Z_scope.

Section Loop.
Variables (eps : Z) (N : nat) (D : matrix) (d : demands) (C L : limit).
Variables (order : list nat) (overlap : list nat -> list nat -> bool) (gap : list nat -> nat) (set_order : list nat -> list nat).
Variables (minimize_K full_convergence : bool).
Notation exact := (exact_rd D d C).
Notation feas := (feasible D d C L eps eps).
Notation cost := (routes_cost D).
Notation ok := (ok eps D d C L).
Notation full := (Forall (fun r : list nat => r <> [])).
Notation no_worse := (no_worse D).
Notation better := (better D).
Notation known := (known N).
Notation settled := (settled eps D d C L).
Hypothesis Heps : 0 <= eps.
Hypothesis Hsym : symmetric D.
Hypothesis HT : triangle D.
Hypothesis Hd : forall n, 0 <= d n.
Hypothesis Hd0 : d 0%nat = 0.
Hypothesis HD0 : D 0%nat 0%nat = 0.
Hypothesis Hset : forall l, Permutation (set_order l) l.
Hypothesis Halone : served_alone N D d C L eps eps.
Hypothesis Horder : Permutation order (seq 1 (N - 1)).
Hypothesis Hgap : forall l, l <> [] -> (gap l < length l)%nat.
Hypothesis Hnil : feas [].

Notation iter := (iteration eps N D d C L order overlap gap set_order minimize_K full_convergence).
Notation loop := (improve_loop eps N D d C L order overlap gap set_order minimize_K full_convergence).
Notation upQ := (up_to_Q eps D d C L minimize_K).
Notation aftQ := (after_Q eps N D d C L order overlap gap set_order minimize_K).

Lemma upQ_ok cs rs st fuel st' o : ok cs rs st -> upQ fuel st = (st', o) ->
  settled cs st' rs /\ (forall b, o = Ended b -> exists rs', ok cs rs' st' /\ Permutation (concat rs') (concat rs) /\
    (minimize_K = true -> full rs' /\ no_worse rs rs' /\ (b = true -> better rs rs'))).
Proof. intros H1 H2. eapply up_to_Q_ok; eassumption. Qed.
Lemma aftQ_ok cs rs st deleted fuel st' o del' : known cs -> ok cs rs st -> aftQ fuel deleted st = (st', o, del') ->
  settled cs st' rs /\ (minimize_K = true -> full rs -> exists rs', ok cs rs' st' /\ Permutation (concat rs') (concat rs) /\ no_worse rs rs' /\
    (forall b, o = Ended b -> b = true \/ del' = true -> better rs rs')).
Proof. intros H0 H1 H2. eapply after_Q_ok; eassumption. Qed.

Definition turn_state (t : turn) : wst := match t with Stop st => st | Unfinished st => st | Next s => wh_st s end.
Lemma settled_trans cs st rs rs0 : settled cs st rs -> Permutation (concat rs) (concat rs0) -> settled cs st rs0.
Proof. intros (r & O & P) H. exists r. split; [exact O|]. etransitivity; eassumption. Qed.
Lemma iteration_ok cs rs s fuel : known cs -> ok cs rs (wh_st s) -> settled cs (turn_state (iter fuel s)) rs.
Proof.
  intros Hk Ho. unfold iteration. destruct (upQ fuel (wh_st s)) as [st1 o1] eqn:E1. destruct (upQ_ok cs rs _ fuel st1 o1 Ho E1) as [S1 G1].
  destruct o1 as [c1|]; [|exact S1]. cbv zeta. destruct (match wh_prev_Q s with None => true | Some q => _ end); [exact S1|].
  destruct (aftQ fuel (wh_deleted s) st1) as [[st2 o2] del] eqn:E2. destruct (G1 c1 eq_refl) as (r1 & O1 & P1 & _).
  destruct (aftQ_ok cs r1 st1 _ fuel st2 o2 del Hk O1 E2) as [S2 _]. pose proof (settled_trans _ _ _ _ S2 P1) as S.
  destruct o2 as [c2|]; [|exact S]. destruct (_ || _ || _)%bool; exact S.
Qed.
Lemma iteration_total cs rs s : known cs -> ok cs rs (wh_st s) -> exists f0 t, (forall fuel, (f0 <= fuel)%nat -> iter fuel s = t) /\ forall st, t <> Unfinished st.
Proof.
  intros Hk Ho. assert (T1 : total (fun fuel => upQ fuel (wh_st s))) by (eapply up_to_Q_total; eassumption). destruct T1 as (f1 & st1 & c1 & E1).
  destruct (upQ_ok cs rs _ f1 st1 _ Ho (E1 f1 (Nat.le_refl _))) as [_ G1]. destruct (G1 c1 eq_refl) as (r1 & O1 & _).
  assert (T2 : exists f0 st' b del', forall fuel, (f0 <= fuel)%nat -> aftQ fuel (wh_deleted s) st1 = (st', Ended b, del')) by (eapply after_Q_total; eassumption).
  destruct T2 as (f2 & st2 & c2 & del & E2).
  exists (Nat.max f1 f2). eexists. split.
  - intros fuel Hf. unfold iteration. rewrite E1 by lia. rewrite E2 by lia. reflexivity.
  - intros st. cbv zeta. destruct (match wh_prev_Q s with None => true | Some q => _ end); [discriminate|]. destruct (_ || _ || _)%bool; discriminate.
Qed.
Lemma loop_ok cs inner_fuel : known cs -> forall fuel rs s, ok cs rs (wh_st s) -> settled cs (fst (loop inner_fuel fuel s)) rs.
Proof.
  intros Hk. induction fuel as [|fuel IH]; intros rs s Ho; cbn [improve_loop].
  - exists rs. now split.
  - pose proof (iteration_ok cs rs s inner_fuel Hk Ho) as H. destruct (iter inner_fuel s) as [st|s'|st]; cbn [turn_state fst] in *; [exact H| |exact H].
    destruct H as (r1 & O1 & P1). eapply settled_trans; [apply IH; exact O1|exact P1].
Qed.

Lemma total_cost_ok cs rs st : ok cs rs st -> total_cost st = cost rs.
Proof.
  intros (H & _). unfold total_cost, routes_cost. f_equal. clear - H. induction H as [|r rd rs rds H1 H2 IH]; [reflexivity|]. cbn [map]. destruct H1 as (_ & -> & _). now rewrite IH.
Qed.
(** The cost at the last Q-point is larger than the cost now. *)
Definition stale (rs : list (list nat)) (s : whstate) : Prop := match wh_prev_Q s with None => True | Some q => cost rs < q end.
Lemma cost_nn rs : 0 <= cost rs.
Proof. apply routes_pos, metric_nonneg; assumption. Qed.
Lemma iteration_saves cs rs s fuel : minimize_K = true -> known cs -> ok cs rs (wh_st s) ->
  match iter fuel s with
  | Stop st => exists rs', ok cs rs' st /\ Permutation (concat rs') (concat rs) /\ no_worse rs rs'
  | Next s' => exists rs', ok cs rs' (wh_st s') /\ Permutation (concat rs') (concat rs) /\ no_worse rs rs' /\ (better rs rs' \/ (stale rs s /\ ~ stale rs' s'))
  | Unfinished _ => True
  end.
Proof.
  intros Hm Hk Ho. unfold iteration. destruct (upQ fuel (wh_st s)) as [st1 o1] eqn:E1. destruct (upQ_ok cs rs _ fuel st1 o1 Ho E1) as [S1 G1].
  destruct o1 as [c1|]; [|exact I]. cbv zeta. destruct (G1 c1 eq_refl) as (r1 & O1 & P1 & W1). destruct (W1 Hm) as (F1 & N1 & B1).
  pose proof (total_cost_ok cs r1 st1 O1) as Ec. rewrite Ec.
  destruct (match wh_prev_Q s with None => true | Some q => _ end) eqn:EQ.
  - exists r1. split; [exact O1|]. split; [exact P1|]. split; [exact N1|].
    assert (X : better rs r1 \/ (ne r1 <= ne rs /\ cost r1 = cost rs)) by (unfold P_wh5.no_worse, P_wh5.better in *; clear - N1; lia).
    destruct X as [X|[_ X]]; [now left|right]. split; [|cbn; clear; lia]. unfold stale. destruct (wh_prev_Q s) as [q|]; [|exact I].
    pose proof (cost_nn rs). apply Z.ltb_lt in EQ. clear - EQ X H. lia.
  - destruct (aftQ fuel (wh_deleted s) st1) as [[st2 o2] del] eqn:E2. destruct (aftQ_ok cs r1 st1 _ fuel st2 o2 del Hk O1 E2) as [_ G2].
    destruct (G2 Hm F1) as (r2 & O2 & P2 & N2 & B2). assert (P : Permutation (concat r2) (concat rs)) by (etransitivity; eassumption).
    assert (W : no_worse rs r2) by (eapply no_worse_trans; eassumption).
    destruct o2 as [c2|]; [|exact I]. destruct (_ || _ || _)%bool eqn:Es; [now exists r2|]. exists r2. split; [exact O2|]. split; [exact P|]. split; [exact W|]. left.
    apply orb_false_iff in Es as [Es _]. apply orb_false_iff in Es as [Ea Eb]. destruct full_convergence; cbn [andb negb] in Ea, Eb.
    + destruct c1; cbn [orb negb] in Ea; [eapply better_trans; [now apply B1|exact N2]|]. destruct c2; [|discriminate].
      eapply trans_better; [exact N1|]. apply (B2 true eq_refl). now left.
    + destruct del; [|discriminate]. eapply trans_better; [exact N1|]. apply (B2 c2 eq_refl). now right.
Qed.
Lemma loop_saves cs inner_fuel : minimize_K = true -> known cs -> forall fuel rs s st, ok cs rs (wh_st s) -> loop inner_fuel fuel s = (st, true) ->
  exists rs', ok cs rs' st /\ Permutation (concat rs') (concat rs) /\ no_worse rs rs'.
Proof.
  intros Hm Hk. induction fuel as [|fuel IH]; intros rs s st Ho E; cbn [improve_loop] in E; [discriminate|].
  pose proof (iteration_saves cs rs s inner_fuel Hm Hk Ho) as H. destruct (iter inner_fuel s) as [s1|s'|s1]; [injection E as <-; exact H| |discriminate].
  destruct H as (r1 & O1 & P1 & N1 & _). destruct (IH r1 s' st O1 E) as (r2 & O2 & P2 & N2). exists r2. split; [exact O2|].
  split; [etransitivity; eassumption|eapply no_worse_trans; eassumption].
Qed.

Definition loops (s : whstate) : Prop := exists f0 st, forall inner_fuel fuel, (f0 <= inner_fuel)%nat -> (f0 <= fuel)%nat -> loop inner_fuel fuel s = (st, true).
Definition flag (rs : list (list nat)) (s : whstate) : nat := match wh_prev_Q s with None => 1%nat | Some q => if cost rs <? q then 1%nat else 0%nat end.
Lemma flag_stale rs s : (stale rs s -> flag rs s = 1%nat) /\ (~ stale rs s -> flag rs s = 0%nat) /\ (flag rs s <= 1)%nat.
Proof.
  unfold stale, flag. clear. destruct (wh_prev_Q s) as [q|]; [|repeat split; [tauto|lia]]. destruct (cost rs <? q) eqn:E; [apply Z.ltb_lt in E|apply Z.ltb_ge in E]; repeat split; intros; try lia; exfalso; lia.
Qed.
Lemma loop_ends cs : minimize_K = true -> known cs -> forall k m c rs s, (Z.to_nat (ne rs) < k)%nat -> (Z.to_nat (cost rs) < m)%nat -> (flag rs s < c)%nat ->
  ok cs rs (wh_st s) -> loops s.
Proof.
  intros Hm Hk. induction k as [|k IHk]; [lia|]. induction m as [|m IHm]; [lia|]. induction c as [|c IHc]; [lia|].
  intros rs s H1 H2 H3 Ho. destruct (iteration_total cs rs s Hk Ho) as (f1 & t & E & Hnu).
  pose proof (iteration_saves cs rs s f1 Hm Hk Ho) as H. rewrite E in H by lia.
  destruct t as [st|s'|st].
  - exists (S f1), st. intros i [|fuel] Hi Hf; [lia|]. cbn [improve_loop]. rewrite E by lia. reflexivity.
  - destruct H as (r1 & O1 & P1 & N1 & Hb).
    assert (G : loops s').
    { pose proof (ne_pos rs). pose proof (ne_pos r1). pose proof (cost_nn rs). pose proof (cost_nn r1).
      destruct (flag_stale rs s) as (X1 & X2 & X3). destruct (flag_stale r1 s') as (Y1 & Y2 & Y3).
      destruct (Z_lt_le_dec (ne r1) (ne rs)) as [Hlt|Hle].
      { apply (IHk (S (Z.to_nat (cost r1))) 2%nat r1); [lia|lia|lia|exact O1]. }
      destruct (Z_lt_le_dec (cost r1) (cost rs)) as [Hlt|Hle2].
      { apply (IHm 2%nat r1); [unfold P_wh5.no_worse in N1; lia|lia|lia|exact O1]. }
      destruct Hb as [Hb|[Hb1 Hb2]]; [unfold P_wh5.better in Hb; lia|]. specialize (X1 Hb1). specialize (Y2 Hb2).
      apply (IHc r1); [unfold P_wh5.no_worse in N1; lia|unfold P_wh5.no_worse in N1; lia|lia|exact O1]. }
    destruct G as (f2 & st & G). exists (S (Nat.max f1 f2)), st. intros i [|fuel] Hi Hf; [lia|]. cbn [improve_loop]. rewrite E by lia. apply G; lia.
  - now destruct (Hnu st).
Qed.

(** ** Solutions *)
Notation all := (seq 1 (N - 1)).
Lemma known_all : known all.
Proof. intros x Hx. apply in_seq in Hx. lia. Qed.
Definition start_of (rs : list (list nat)) : whstate := mkwh (mkw (from_solution (encode rs) D d) []) true None None.
Lemma start_ok rs : serves N D d C L eps eps rs -> ok all rs (wh_st (start_of rs)).
Proof.
  intros (H1 & H2 & H3). unfold covers in H1.
  assert (HD : distinct_customers rs).
  { split; [eapply Permutation_NoDup; [symmetry; exact H1|apply seq_NoDup]|]. apply Forall_forall. intros x Hx. apply (Permutation_in _ H1), in_seq in Hx. lia. }
  pose proof (init_exact D d C rs Hd0 HD) as HI. unfold start_of, P_wh.ok. cbn [wh_st ws_routes ws_log].
  assert (Ef : filter nonempty rs = rs).
  { clear - H2. induction H2 as [|r rs H N1 IH]; [reflexivity|]. cbn [filter]. destruct r; [easy|]. cbn. now rewrite IH. }
  rewrite Ef in HI. split; [exact HI|]. split; [exact HD|]. split; [exact H3|]. split; [intros x Hx; eapply Permutation_in; eassumption|constructor].
Qed.
Lemma flat_sol rs rds : Forall2 only_route rs rds -> 0%nat :: flat_map (fun r => slice_from 1 (rd_route r)) rds = encode rs.
Proof.
  intros H. unfold encode. f_equal. induction H as [|r rd rs rds H1 H2 IH]; [reflexivity|]. cbn [flat_map]. rewrite IH, H1. reflexivity.
Qed.
Lemma to_sol_part cs rds : part eps D d C L cs rds -> exists rs, to_sol rds = encode rs /\ Forall (okr eps D d C L cs) rs /\ full rs.
Proof.
  intros (rs & H1 & H2). exists (filter nonempty rs). unfold to_sol. rewrite (flat_sol rs rds H1), weR_encode.
  - split; [reflexivity|]. split; [|apply filter_full]. apply Forall_forall. intros r Hr. apply filter_In in Hr as [Hr _]. rewrite Forall_forall in H2. auto.
  - apply Forall_forall. intros r Hr. rewrite Forall_forall in H2. now apply H2.
  - apply Forall_forall. intros r Hr. rewrite Forall_forall in H2. apply nodup_no_repeats. now apply H2.
Qed.
Lemma to_sol_ok cs rs st : ok cs rs st -> to_sol (ws_routes st) = encode (filter nonempty rs).
Proof. intros (H1 & H2 & _). unfold to_sol. rewrite (flat_sol rs); [now apply without_empty|eapply exact_only; exact H1]. Qed.
Lemma ok_serves rs0 rs st : serves N D d C L eps eps rs0 -> ok all rs st -> Permutation (concat rs) (concat rs0) -> serves N D d C L eps eps (filter nonempty rs).
Proof.
  intros (H1 & _) (_ & _ & H3 & _) HP. unfold covers in H1. split; [unfold covers; rewrite concat_nonempty; etransitivity; eassumption|]. split; [apply filter_full|].
  apply Forall_forall. intros r Hr. apply filter_In in Hr as [Hr _]. rewrite Forall_forall in H3. auto.
Qed.
Notation imp := (improve eps N D d C L order overlap gap set_order minimize_K full_convergence).
Lemma improve_serves rs0 fuel : serves N D d C L eps eps rs0 ->
  exists rs, ok all rs (fst (imp fuel (encode rs0))) /\ to_sol (ws_routes (fst (imp fuel (encode rs0)))) = encode (filter nonempty rs) /\ serves N D d C L eps eps (filter nonempty rs).
Proof.
  intros H. pose proof (loop_ok all fuel known_all fuel rs0 (start_of rs0) (start_ok rs0 H)) as (rs & O & P).
  exists rs. split; [exact O|]. split; [now apply to_sol_ok with all|eapply ok_serves; eassumption].
Qed.
Lemma length_ne rs : Z.of_nat (length (filter nonempty rs)) = ne rs.
Proof. rewrite <- ne_filter. symmetry. apply ne_all, filter_full. Qed.
Lemma improve_saves rs0 fuel st : minimize_K = true -> serves N D d C L eps eps rs0 -> imp fuel (encode rs0) = (st, true) ->
  exists rs, to_sol (ws_routes st) = encode rs /\ serves N D d C L eps eps rs /\ not_beaten true D rs rs0.
Proof.
  intros Hm H E. destruct (loop_saves all fuel Hm known_all fuel rs0 (start_of rs0) st (start_ok rs0 H) E) as (rs & O & P & W).
  exists (filter nonempty rs). split; [now apply to_sol_ok with all|]. split; [eapply ok_serves; eassumption|].
  unfold not_beaten, beats. rewrite filter_cost by exact HD0. pose proof (length_ne rs). destruct H as (_ & H & _). apply ne_all in H. unfold P_wh5.no_worse in W. lia.
Qed.
Lemma improve_ends rs0 : minimize_K = true -> serves N D d C L eps eps rs0 -> exists f0 st, forall fuel, (f0 <= fuel)%nat -> imp fuel (encode rs0) = (st, true).
Proof.
  intros Hm H. destruct (loop_ends all Hm known_all _ _ _ rs0 (start_of rs0) (Nat.lt_succ_diag_r _) (Nat.lt_succ_diag_r _) (Nat.lt_succ_diag_r _) (start_ok rs0 H)) as (f0 & st & E).
  exists f0, st. intros fuel Hf. now apply E.
Qed.
End Loop.
