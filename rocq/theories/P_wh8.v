(** * Wren and Holliday: the whole heuristic *)
From Verif Require Import Spec_rfcs Spec_ls Spec_inter Spec_savings PyBase M_util M_routedata M_intra M_inter M_driver Spec_driver M_psavings M_ssavings M_savfam M_sweep
     P_base P_cvrp P_rd P_util P_savfam P_intra P_inter P_sweep3 P_driver P_driver2 P_mj2 P_mj3 M_wh P_wh P_wh2 P_wh3 P_wh4 P_wh5 P_wh6 P_wh7 Spec_wh Spec.
From Coq Require Import ZifyBool ZifyNat Lia List Permutation.
Import ListNotations.
Local Open Scope Z_scope.

Lemma within_zero lim eps x : 0 <= x -> within lim eps x -> within lim eps 0.
Proof. unfold within. intros H. destruct lim; intros; auto; try lia. Qed.

Section Whole.
Variables (eps : Z) (N : nat) (D : matrix) (d : demands) (C L : limit).
Variables (order : list nat) (overlap : list nat -> list nat -> bool) (gap : list nat -> nat) (set_order : list nat -> list nat).
Variables (minimize_K full_convergence : bool).
Notation wh := (wren_holliday_init eps N D d C L order overlap gap set_order minimize_K full_convergence).
Notation imp := (improve eps N D d C L order overlap gap set_order minimize_K full_convergence).
Notation impall := (improve_all eps N D d C L order overlap gap set_order minimize_K full_convergence).
Notation serv := (serves N D d C L eps eps).
Notation swept := (swept eps N D d C L order).
Hypothesis W : wh_instance eps N D d C L order gap set_order.

Lemma nil_ok : feasible D d C L eps eps [].
Proof.
  destruct W. destruct (wi_alone 1%nat ltac:(lia)) as [H1 H2]. split.
  - eapply within_zero; [|exact H1]. cbn. pose proof (wi_demand 1%nat). lia.
  - assert (E : route_cost D [] = 0) by (cbn; rewrite wi_depot; lia). rewrite E. eapply within_zero; [|exact H2].
    pose proof (path_pos D (metric_nonneg D wi_sym wi_tri) (0%nat :: [1%nat] ++ [0%nat])) as H. exact H.
Qed.

(** The sweeps *)
Lemma order_facts : NoDup order /\ (forall x, In x order -> (1 <= x < N)%nat) /\ length order = (N - 1)%nat.
Proof.
  destruct W. split; [eapply Permutation_NoDup; [symmetry; exact wi_order|apply seq_NoDup]|]. split.
  - intros x Hx. apply (Permutation_in _ wi_order), in_seq in Hx. lia.
  - rewrite (Permutation_length wi_order). apply seq_length.
Qed.
Lemma sweep_once (s : bool * nat) : (snd s < N - 1)%nat -> exists f0 rs, serv rs /\
  (forall fuel, (f0 <= fuel)%nat -> sweep_init eps eps D d C L false (in_sweep_order D) order N [] (if fst s then CCW else CW) (SeedPositions [snd s]) fuel = Some (SwReturns (Some (encode rs)))) /\
  (forall fuel r, sweep_init eps eps D d C L false (in_sweep_order D) order N [] (if fst s then CCW else CW) (SeedPositions [snd s]) fuel = Some r -> r = SwReturns (Some (encode rs))).
Proof.
  intros Hs. destruct order_facts as (H1 & H2 & H3). destruct (one_sweep eps N D d C L (wi_alone _ _ _ _ _ _ _ _ _ W) (wi_demand _ _ _ _ _ _ _ _ _ W) order (fst s) (snd s) H1 H2) as (f0 & rs & A1 & A2 & A3 & A4 & A5); [lia|].
  exists f0, rs. split; [|now split]. split; [unfold covers; etransitivity; [exact A3|apply W]|]. now split.
Qed.
Lemma swept_once (s : bool * nat) rs rs' : (snd s < N - 1)%nat -> serv rs -> swept s rs -> serv rs' -> swept s rs' -> rs = rs'.
Proof.
  intros Hs V1 (f1 & E1) V2 (f2 & E2). destruct (sweep_once s Hs) as (f0 & r & V & _ & U). apply U in E1. apply U in E2.
  assert (E : encode rs = encode rs') by congruence. apply encode_inj in E; [exact E|eapply covers_only, V1|eapply covers_only, V2].
Qed.
Lemma sweeps_ok sweeps : good_sweeps N sweeps -> exists f0 rss, Forall2 (fun s rs => serv rs /\ swept s rs) sweeps rss /\
  (forall fuel, (f0 <= fuel)%nat -> initial_sols eps N D d C L order sweeps fuel = Some (Some (map encode rss))) /\
  (forall fuel r, initial_sols eps N D d C L order sweeps fuel = Some r -> r = Some (map encode rss)).
Proof.
  induction 1 as [|s sweeps Hs HF IH].
  - exists 0%nat, []. split; [constructor|]. split; [reflexivity|]. intros fuel r E. injection E as <-. reflexivity.
  - destruct IH as (f1 & rss & A1 & A2 & A3). destruct (sweep_once s Hs) as (f0 & rs & V & E & U). exists (Nat.max f0 f1), (rs :: rss).
    split; [constructor; [split; [exact V|exists f0; apply E; lia]|exact A1]|]. destruct s as [ccw start]. cbn [fst snd] in *. split.
    + intros fuel Hf. cbn [initial_sols]. rewrite E by lia. rewrite A2 by lia. reflexivity.
    + intros fuel r. cbn [initial_sols]. destruct (sweep_init _ _ _ _ _ _ _ _ _ _ _ _ _ fuel) as [z|] eqn:Ez; [|discriminate]. rewrite (U fuel z Ez).
      destruct (initial_sols eps N D d C L order sweeps fuel) as [z2|] eqn:E2; [|discriminate]. rewrite (A3 fuel z2 E2). intros Er. now injection Er as <-.
Qed.

Lemma imp_serves rs0 fuel : serv rs0 -> exists rs, ok eps D d C L (seq 1 (N - 1)) rs (fst (imp fuel (encode rs0))) /\
  to_sol (ws_routes (fst (imp fuel (encode rs0)))) = encode (filter nonempty rs) /\ serv (filter nonempty rs).
Proof. intros H. pose proof nil_ok. destruct W. eapply improve_serves; eassumption. Qed.
Lemma imp_saves rs0 fuel st : minimize_K = true -> serv rs0 -> imp fuel (encode rs0) = (st, true) ->
  exists rs, to_sol (ws_routes st) = encode rs /\ serv rs /\ not_beaten true D rs rs0.
Proof. intros Hm H. pose proof nil_ok. destruct W. eapply improve_saves; eassumption. Qed.
Lemma imp_ends rs0 : minimize_K = true -> serv rs0 -> exists f0 st, forall fuel, (f0 <= fuel)%nat -> imp fuel (encode rs0) = (st, true).
Proof. intros Hm H. pose proof nil_ok. destruct W. eapply improve_ends; eassumption. Qed.

(** What one sweep is improved to *)
Notation improved := (improved eps N D d C L order overlap gap set_order minimize_K full_convergence).
Lemma all_improved fuel : forall rss0 l, Forall serv rss0 -> impall fuel (map encode rss0) = Some l ->
  exists rss, l = map encode rss /\ Forall serv rss /\ Forall2 improved rss0 rss /\ (minimize_K = true -> Forall2 (fun rs0 rs => not_beaten true D rs rs0) rss0 rss).
Proof.
  induction rss0 as [|rs0 rss0 IH]; intros l HF E.
  - injection E as <-. exists []. repeat split; constructor.
  - inversion HF as [|? ? V0 V1]; subst. cbn [map improve_all] in E. destruct (imp fuel (encode rs0)) as [st [|]] eqn:E0; [|discriminate].
    destruct (impall fuel (map encode rss0)) as [l'|] eqn:E1; [|discriminate]. injection E as <-. destruct (IH l' V1 eq_refl) as (rss & -> & A2 & A3 & A4).
    destruct (imp_serves rs0 fuel V0) as (r & _ & B1 & B2). rewrite E0 in B1. cbn [fst] in B1.
    exists (filter nonempty r :: rss). split; [cbn [map]; now rewrite B1|]. split; [now constructor|]. split; [constructor; [exists fuel, st; now split|exact A3]|].
    intros Hm. constructor; [|now apply A4]. destruct (imp_saves rs0 fuel st Hm V0 E0) as (r2 & C1 & C2 & C3). rewrite B1 in C1.
    apply encode_inj in C1; [congruence|eapply covers_only, B2|eapply covers_only, C2].
Qed.
Lemma all_end : minimize_K = true -> forall rss0, Forall serv rss0 -> exists f0 l, forall fuel, (f0 <= fuel)%nat -> impall fuel (map encode rss0) = Some l.
Proof.
  intros Hm. induction 1 as [|rs0 rss0 V HF IH]; [now exists 0%nat, []|]. destruct IH as (f1 & l & E1). destruct (imp_ends rs0 Hm V) as (f0 & st & E0).
  exists (Nat.max f0 f1). eexists. intros fuel Hf. cbn [map improve_all]. rewrite E0 by lia. rewrite E1 by lia. reflexivity.
Qed.
Lemma best_encoded rss : rss <> [] -> Forall (Forall customers_only) rss ->
  exists rs, wh_best D minimize_K (map encode rss) = Some (encode rs) /\ In rs rss /\ Forall (not_beaten minimize_K D rs) rss.
Proof.
  intros Hne HF. destruct (best_sols minimize_K D (map (fun rs => (tt, rs)) rss)) as ([] & rs & H1 & H2 & H3).
  - destruct rss; [easy|discriminate].
  - apply Forall_forall. intros x Hx. apply in_map_iff in Hx as (rs & <- & Hx). rewrite Forall_forall in HF. now apply HF.
  - exists rs. unfold wh_best. unfold sols in H2. rewrite map_map in H2. cbn [fst snd] in H2. rewrite map_map, H2. split; [reflexivity|].
    split; [apply in_map_iff in H1 as (x & E & Hx); injection E as ->; exact Hx|]. apply Forall_forall. intros rs' Hr. apply (H3 tt). apply in_map_iff. now exists rs'.
Qed.
Lemma serv_only rss : Forall serv rss -> Forall (Forall customers_only) rss.
Proof. intros H. apply Forall_forall. intros rs Hr. rewrite Forall_forall in H. eapply covers_only, (H rs Hr). Qed.

Lemma F2_left {A B} (P : B -> Prop) (Q : A -> B -> Prop) l l' : Forall2 (fun a b => P b /\ Q a b) l l' -> Forall P l'.
Proof. clear. induction 1; constructor; tauto. Qed.
Lemma result sweeps fuel r : good_sweeps N sweeps -> sweeps <> [] -> wh sweeps fuel = Some r ->
  exists rss0 rss rs, Forall2 swept sweeps rss0 /\ Forall2 improved rss0 rss /\ Forall serv rss0 /\ Forall serv rss /\
    r = WhReturns (Some (encode rs)) /\ In rs rss /\ Forall (not_beaten minimize_K D rs) rss /\ (minimize_K = true -> Forall (not_beaten true D rs) rss0).
Proof.
  intros Hs Hne E. destruct (sweeps_ok sweeps Hs) as (f0 & rss0 & F0 & _ & U). unfold wren_holliday_init in E.
  destruct (initial_sols eps N D d C L order sweeps fuel) as [z|] eqn:E0; [|discriminate]. rewrite (U fuel z E0) in E.
  destruct (impall fuel (map encode rss0)) as [l|] eqn:E1; [|discriminate]. injection E as <-.
  destruct (all_improved fuel rss0 l (F2_left _ _ _ _ F0) E1) as (rss & -> & V & I & B).
  assert (Hne' : rss <> []). { intros ->. apply Hne. inversion I; subst. now inversion F0. }
  destruct (best_encoded rss Hne' (serv_only rss V)) as (rs & R1 & R2 & R3). exists rss0, rss, rs.
  split; [clear - F0; induction F0; constructor; tauto|]. split; [exact I|]. split; [eapply F2_left; exact F0|]. split; [exact V|]. split; [now rewrite R1|]. split; [exact R2|]. split; [exact R3|].
  intros Hm. specialize (B Hm). rewrite Hm in R3. clear - B R3. induction B as [|a b l l' H B IH]; [constructor|]. inversion R3; subst. constructor; [|now apply IH].
  unfold not_beaten, beats in *. lia.
Qed.
Lemma ends sweeps : minimize_K = true -> good_sweeps N sweeps -> exists f0 r, forall fuel, (f0 <= fuel)%nat -> wh sweeps fuel = Some r.
Proof.
  intros Hm Hs. destruct (sweeps_ok sweeps Hs) as (f0 & rss0 & F0 & E0 & _). destruct (all_end Hm rss0 (F2_left _ _ _ _ F0)) as (f1 & l & E1).
  exists (Nat.max f0 f1). eexists. intros fuel Hf. unfold wren_holliday_init. rewrite E0 by lia. rewrite E1 by lia. reflexivity.
Qed.

(** Interrupts *)
Lemma seen_part rs0 rds : serv rs0 -> seen eps N D d C L order overlap gap set_order minimize_K full_convergence (encode rs0) rds ->
  exists rs, to_sol rds = encode rs /\ partial_plan eps N D d C L rs.
Proof.
  intros V (fuel & H). cbv zeta in H. destruct (imp_serves rs0 fuel V) as (r & O & _ & _).
  assert (P : part eps D d C L (seq 1 (N - 1)) rds). { destruct H as [<-|H]; [eapply ok_part; exact O|]. destruct O as (_ & _ & _ & _ & HL). rewrite Forall_forall in HL. now apply HL. }
  assert (P2 : exists rs, to_sol rds = encode rs /\ Forall (okr eps D d C L (seq 1 (N - 1))) rs /\ Forall (fun r => r <> []) rs) by (eapply to_sol_part; exact P).
  destruct P2 as (rs & E & F & G). exists rs. split; [exact E|]. unfold partial_plan. rewrite Forall_forall in *. intros q Hq. destruct (F q Hq) as (X1 & X2 & X3 & X4).
  split; [now apply G|]. split; [exact X1|]. split; [exact X2|]. intros x Hx. apply X4, in_seq in Hx. lia.
Qed.
Lemma partial_only rs : partial_plan eps N D d C L rs -> Forall customers_only rs.
Proof. unfold partial_plan. intros H. rewrite Forall_forall in *. intros r Hr. destruct (H r Hr) as (_ & _ & _ & X). apply Forall_forall. intros x Hx. apply X in Hx. lia. Qed.
Lemma serv_partial rs : serv rs -> partial_plan eps N D d C L rs.
Proof.
  intros (H1 & H2 & H3). unfold partial_plan. rewrite Forall_forall in *. intros r Hr. split; [now apply H2|]. split; [now apply H3|]. unfold covers in H1.
  split; [eapply nodup_concat_each; [eapply Permutation_NoDup; [symmetry; exact H1|apply seq_NoDup]|exact Hr]|].
  intros x Hx. assert (In x (seq 1 (N - 1))) by (eapply Permutation_in; [exact H1|]; apply in_concat; now exists r). apply in_seq in H. lia.
Qed.
Lemma interrupted rss rs0 rds : Forall serv rss -> serv rs0 -> seen eps N D d C L order overlap gap set_order minimize_K full_convergence (encode rs0) rds ->
  exists rs, interrupted_at D minimize_K (map encode rss) rds = Some (encode rs) /\ partial_plan eps N D d C L rs /\
    (In rs rss \/ to_sol rds = encode rs) /\ Forall (not_beaten minimize_K D rs) rss.
Proof.
  intros V V0 HS. destruct (seen_part rs0 rds V0 HS) as (rp & E & P).
  destruct (best_encoded (rss ++ [rp])) as (rs & R1 & R2 & R3); [destruct rss; discriminate|apply Forall_app; split; [now apply serv_only|constructor; [now apply partial_only|constructor]]|].
  exists rs. unfold interrupted_at. rewrite E. rewrite map_app in R1. cbn [map] in R1. split; [exact R1|]. apply Forall_app in R3 as [R3 _].
  apply in_app_or in R2 as [R2|[->|[]]].
  - split; [apply serv_partial; rewrite Forall_forall in V; now apply V|]. split; [now left|exact R3].
  - split; [exact P|]. split; [now right|exact R3].
Qed.
Lemma interrupted_early sweeps k : good_sweeps N sweeps -> sweeps <> [] -> exists rss, Forall2 swept sweeps rss /\ Forall serv rss /\
  (k = 0%nat -> phase_one_interrupted D minimize_K (map encode rss) k = None) /\
  (k <> 0%nat -> exists rs, phase_one_interrupted D minimize_K (map encode rss) k = Some (encode rs) /\ In rs (firstn k rss) /\ serv rs /\
     Forall (not_beaten minimize_K D rs) (firstn k rss)).
Proof.
  intros Hs Hne. destruct (sweeps_ok sweeps Hs) as (f0 & rss0 & F0 & _). exists rss0. split; [clear - F0; induction F0; constructor; tauto|].
  pose proof (F2_left _ _ _ _ F0) as V. split; [exact V|]. split; [intros ->; reflexivity|]. intros Hk. unfold phase_one_interrupted. rewrite firstn_map.
  assert (V2 : Forall serv (firstn k rss0)). { rewrite <- (firstn_skipn k rss0) in V. now apply Forall_app in V. }
  destruct (best_encoded (firstn k rss0)) as (rs & R1 & R2 & R3); [|now apply serv_only|].
  - destruct k; [easy|]. inversion F0; subst; [easy|]. discriminate.
  - exists rs. split; [exact R1|]. split; [exact R2|]. split; [rewrite Forall_forall in V2; now apply V2|exact R3].
Qed.
(** Every turn ends *)
Notation turns := (after_turns eps N D d C L order overlap gap set_order minimize_K full_convergence).
Lemma turns_end : forall n rs s, ok eps D d C L (seq 1 (N - 1)) rs (wh_st s) -> exists f0 t, (forall fuel, (f0 <= fuel)%nat -> turns n fuel s = t) /\ forall st, t <> Unfinished st.
Proof.
  pose proof nil_ok as Hn. destruct W. induction n as [|n IH]; intros rs s Ho; [exists 0%nat, (Next s); split; [reflexivity|discriminate]|]. cbn [after_turns].
  assert (Hk : known N (seq 1 (N - 1))) by (eapply known_all; eassumption).
  assert (G : exists f0 t, (forall fuel, (f0 <= fuel)%nat -> iteration eps N D d C L order overlap gap set_order minimize_K full_convergence fuel s = t) /\ forall st, t <> Unfinished st)
    by (eapply iteration_total; eassumption).
  destruct G as (f0 & t & E & Hu). destruct t as [st|s'|st]; [exists f0, (Stop st); split; [intros fuel Hf; now rewrite E|discriminate]| |now destruct (Hu st)].
  assert (G : settled eps D d C L (seq 1 (N - 1)) (wh_st s') rs).
  { assert (G : settled eps D d C L (seq 1 (N - 1)) (turn_state (iteration eps N D d C L order overlap gap set_order minimize_K full_convergence f0 s)) rs) by (eapply iteration_ok; eassumption).
    rewrite (E f0) in G by lia. exact G. }
  destruct G as (rs' & O' & _). destruct (IH rs' s' O') as (f1 & t & E1 & Hu1). exists (Nat.max f0 f1), t. split; [|exact Hu1].
  intros fuel Hf. rewrite E by lia. apply E1. lia.
Qed.
Lemma every_turn_ends rs0 n : serv rs0 -> exists f0 t, (forall fuel, (f0 <= fuel)%nat -> turns n fuel (before_turns D d rs0) = t) /\ forall st, t <> Unfinished st.
Proof. intros H. apply turns_end with rs0. pose proof nil_ok. destruct W. eapply start_ok; eassumption. Qed.
End Whole.
