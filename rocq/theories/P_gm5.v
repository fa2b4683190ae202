(** * What Gillett and Miller's algorithm returns *)
From Verif Require Import Spec Spec_rfcs Spec_inter Spec_savings Spec_sweep Spec_gm PyBase P_base M_util M_psavings M_ssavings M_savfam M_nn M_sweep M_gm P_savfam P_cvrp P_sweep P_sweep2 P_sweep3 P_sweep4 P_sweep5 P_ssavings P_gm P_gm2 P_gm3 P_gm4.
From Coq Require Import ZifyBool ZifyNat Lia Arith List Permutation.
Import ListNotations.
Local Open Scope Z_scope.

Section Result.
Variables ceps seps : Z.
Variable N : nat.
Variable D : matrix.
Variable d : demands.
Variables C L : limit.
Variable tsp : matrix -> routing.
Variable order : list nat.
Variable score : bool -> nat -> nat -> Z.
Hypothesis Hf : solver N D (tsp D).
Hypothesis Halone : served_alone N D d C L ceps seps.
Hypothesis Hp : Permutation order (seq 1 (N - 1)).
Hypothesis Hd : forall i, (1 <= i < N)%nat -> 0 <= d i.
Notation gives := (gm_gives ceps seps N D d C L tsp order score).
Notation run := (gm_run ceps seps N D d C L tsp order score).
Notation candidates := (gm_candidates ceps seps N D d C L tsp order score).

Lemma order_len : length order = (N - 1)%nat.
Proof. now rewrite (Permutation_length Hp), seq_length. Qed.
Lemma ord_nodup : NoDup order.
Proof. exact (order_nodup N order Hp). Qed.
Lemma ord_cust x : In x order -> (1 <= x < N)%nat.
Proof. intros H. apply (Permutation_in x Hp), in_seq in H. lia. Qed.

Lemma run_mono ccw start fuel fuel' x : (fuel <= fuel')%nat -> run ccw start fuel = Some x -> run ccw start fuel' = Some x.
Proof. intros H. unfold gm_run. apply gm_sweep_mono, H. Qed.

Lemma run_gives_ok ccw start fuel x : (start < N - 1)%nat -> run ccw start fuel = Some x ->
  exists routes rs, x = Some routes /\ sweep_sol routes = encode rs /\ gives ccw start rs /\ serves N D d C L ceps seps rs.
Proof.
  intros Hs E. destruct x as [routes|].
  2:{ exfalso. unfold gm_run, gm_one_sweep in E. destruct (nth_error order start) eqn:En; [destruct (gm_loop _ _ _ _ _ _ _ _ _ _ _ _ _); discriminate|].
      apply nth_error_None in En. rewrite order_len in En. lia. }
  assert (Hdone : sw_done ceps seps D d C L order routes).
  { unfold gm_run in E. refine (gm_sweep_safe ceps seps N D d C L (tsp D) order ccw _ Hf Halone ord_nodup ord_cust Hd _ start fuel routes E).
    intros routed r pos G1 G2 G3 G4 G5 G6 G7. apply callback_contract; assumption. }
  destruct Hdone as (rs & H2 & H3).
  assert (Hser : serves N D d C L ceps seps rs).
  { split; [exact (Permutation_trans H3 Hp)|]. clear - H2. split; induction H2 as [|r l rts rs (_ & G1 & G2) _ IH]; constructor; assumption. }
  assert (Hsol : sweep_sol routes = encode rs) by (eapply sweep_sol_ok; try eassumption; [exact ord_nodup|exact ord_cust]).
  exists routes, rs. split; [reflexivity|]. split; [exact Hsol|]. split; [|exact Hser].
  exists fuel, routes. split; [intros fuel' Hle; exact (run_mono _ _ _ _ _ Hle E)|]. split; [exact Hsol|exact (covers_only N rs (proj1 Hser))].
Qed.

Lemma candidates_gives fuel : forall runs x, Forall (fun r : bool * nat => (snd r < N - 1)%nat) runs -> candidates runs fuel = Some x ->
  exists rss, x = Some (map encode rss) /\ Forall2 (fun r rs => gives (fst r) (snd r) rs /\ serves N D d C L ceps seps rs) runs rss.
Proof.
  induction runs as [|(ccw, start) runs IH]; intros x HF E; cbn [gm_candidates] in E.
  - injection E as <-. exists []. split; [reflexivity|constructor].
  - inversion HF as [|? ? F1 F2]; subst. destruct (run ccw start fuel) as [y|] eqn:Er; [|discriminate].
    destruct (run_gives_ok ccw start fuel y F1 Er) as (routes & rs & -> & G1 & G2 & G3).
    destruct (candidates runs fuel) as [z|] eqn:Ec; [|discriminate]. destruct (IH z F2 eq_refl) as (rss & -> & G4). injection E as <-.
    exists (rs :: rss). split; [cbn; now rewrite G1|]. constructor; [auto|exact G4].
Qed.

Lemma gives_same ccw start rs rs' : gives ccw start rs -> gives ccw start rs' -> rs = rs'.
Proof.
  intros (f1 & r1 & A1 & A2 & A3) (f2 & r2 & B1 & B2 & B3).
  assert (E : Some (Some r1) = Some (Some r2)). { rewrite <- (A1 (f1 + f2)%nat) by lia. rewrite <- (B1 (f1 + f2)%nat) by lia. reflexivity. }
  injection E as ->. assert (Ee : encode rs = encode rs') by congruence. apply encode_inj in Ee; assumption.
Qed.

Lemma gm_best mk runs rss : runs <> [] -> Forall2 (fun r rs => gives (fst r) (snd r) rs /\ serves N D d C L ceps seps rs) runs rss ->
  exists rs, sw_best D mk (map encode rss) = Some (encode rs) /\ serves N D d C L ceps seps rs /\
    (exists r, In r runs /\ gives (fst r) (snd r) rs) /\
    forall r, In r runs -> exists rs', gives (fst r) (snd r) rs' /\ serves N D d C L ceps seps rs' /\ not_beaten mk D rs rs'.
Proof.
  intros Hne HF.
  destruct (best_sols mk D (map (fun rs => (tt, rs)) rss)) as (u & rs & H1 & H2 & H3).
  - destruct HF; [easy|discriminate].
  - rewrite Forall_map. clear Hne. induction HF as [|r rs runs rss (_ & Hs) _ IH]; constructor; [|exact IH]. cbn [snd]. eapply covers_only, (proj1 Hs).
  - exists rs. unfold sw_best, sols in *. rewrite map_map in H2. rewrite map_map. cbn [fst snd] in H2. rewrite H2. split; [reflexivity|].
    assert (Hin : In rs rss). { apply in_map_iff in H1. destruct H1 as (x & E & Hx). now injection E as _ ->. }
    assert (Hgi : exists r, In r runs /\ gives (fst r) (snd r) rs /\ serves N D d C L ceps seps rs).
    { clear - HF Hin. induction HF as [|r q runs rss H _ IH]; [easy|]. destruct Hin as [->|Hin].
      - exists r. split; [now left|exact H].
      - destruct (IH Hin) as (x & Hx & G). exists x. split; [now right|exact G]. }
    destruct Hgi as (r & Hr & Hg & Hs). split; [exact Hs|]. split; [exists r; auto|].
    intros r2 Hr2. assert (exists rs2, In rs2 rss /\ gives (fst r2) (snd r2) rs2 /\ serves N D d C L ceps seps rs2) as (rs2 & Hin2 & K1 & K2).
    { clear - HF Hr2. induction HF as [|x q runs rss H _ IH]; [easy|]. destruct Hr2 as [->|Hr2].
      - exists q. split; [now left|exact H].
      - destruct (IH Hr2) as (y & Hy & G). exists y. split; [now right|exact G]. }
    exists rs2. split; [exact K1|]. split; [exact K2|]. apply (H3 tt). apply in_map_iff. exists rs2. auto.
Qed.

Lemma gm_prefix mk runs k fuel x : Forall (fun r : bool * nat => (snd r < N - 1)%nat) runs -> runs <> [] -> (1 <= k)%nat ->
  gm_interrupted ceps seps N D d C L mk tsp order score runs k fuel = Some x ->
  exists rs, x = Some (Some (encode rs)) /\ serves N D d C L ceps seps rs /\
    (exists r, In r (firstn k runs) /\ gives (fst r) (snd r) rs) /\
    forall r, In r (firstn k runs) -> exists rs', gives (fst r) (snd r) rs' /\ serves N D d C L ceps seps rs' /\ not_beaten mk D rs rs'.
Proof.
  intros HF Hne Hk E.
  assert (HF' : Forall (fun r : bool * nat => (snd r < N - 1)%nat) (firstn k runs)).
  { apply Forall_forall. intros y Hy. rewrite Forall_forall in HF. apply HF. rewrite <- (firstn_skipn k runs). apply in_or_app. now left. }
  unfold gm_interrupted in E. destruct (candidates (firstn k runs) fuel) as [y|] eqn:Ec; [|discriminate].
  destruct (candidates_gives fuel _ _ HF' Ec) as (rss & -> & H2).
  destruct (gm_best mk (firstn k runs) rss) as (rs & B1 & B2 & B3 & B4); [|exact H2|].
  { destruct runs; [easy|]. destruct k; [lia|discriminate]. }
  exists rs. cbn [option_map] in E. rewrite B1 in E. injection E as <-. auto.
Qed.

Lemma gm_result mk rho dir s fuel x : (2 <= N)%nat -> seed_ok N rho s ->
  gillet_miller_init ceps seps N D d C L mk tsp order score rho dir s fuel = Some x ->
  exists rs, x = SwReturns (Some (encode rs)) /\ serves N D d C L ceps seps rs /\
    (exists ccw p, goes dir ccw /\ starts_at N order rho s p /\ gives ccw p rs) /\
    forall ccw p, goes dir ccw -> starts_at N order rho s p ->
      exists rs', gives ccw p rs' /\ serves N D d C L ceps seps rs' /\ not_beaten mk D rs rs'.
Proof.
  intros HN Hs E. destruct (seed_starts N order rho s HN Hp Hs) as (starts & Es & Hne & HF).
  assert (Hst := starts_are N order rho s starts HN Hp Hs Es).
  unfold gillet_miller_init in E. rewrite Es in E. destruct (candidates (sw_runs dir starts) fuel) as [y|] eqn:Ec; [|discriminate].
  destruct (candidates_gives fuel _ _ (runs_valid N dir starts HF) Ec) as (rss & -> & H2).
  destruct (gm_best mk (sw_runs dir starts) rss (runs_ne dir starts Hne) H2) as (rs & B1 & B2 & (r & R1 & R2) & B4).
  exists rs. rewrite B1 in E. injection E as <-. split; [reflexivity|]. split; [exact B2|]. split.
  - unfold sw_runs in R1. apply in_flat_map in R1 as (inc & I1 & I2). apply in_map_iff in I2 as (p & <- & I3).
    exists inc, p. split; [now apply incs_are|]. split; [now apply Hst|exact R2].
  - intros inc p Hi Hpp. apply (B4 (inc, p)). apply runs_in; [now apply incs_are|now apply Hst].
Qed.

Section Ends.
Hypothesis Hmono : no_dearer N (tsp D).
Lemma run_ends ccw start : (start < N - 1)%nat -> exists fuel0 routes, forall fuel, (fuel0 <= fuel)%nat -> run ccw start fuel = Some (Some routes).
Proof.
  intros Hs. unfold gm_run. apply (gm_sweep_ends ceps seps N D d C L (tsp D) order ccw); try assumption.
  - exact ord_nodup.
  - exact ord_cust.
  - intros routed r pos G1 G2 G3 G4 G5 G6 G7. apply callback_contract; assumption.
  - now rewrite order_len.
Qed.
Lemma candidates_end : forall runs, Forall (fun r : bool * nat => (snd r < N - 1)%nat) runs ->
  exists fuel0 x, forall fuel, (fuel0 <= fuel)%nat -> candidates runs fuel = Some x.
Proof.
  induction runs as [|(ccw, start) runs IH]; intros HF.
  - exists 0%nat, (Some []). reflexivity.
  - inversion HF as [|? ? F1 F2]; subst. destruct (IH F2) as (fa & x & A). destruct (run_ends ccw start F1) as (fb & routes & B).
    destruct x as [l|]; exists (fa + fb)%nat; eexists; intros fuel Hle; cbn [gm_candidates]; rewrite (B fuel) by lia; rewrite (A fuel) by lia; reflexivity.
Qed.
Lemma gm_ends mk rho dir s : (2 <= N)%nat -> seed_ok N rho s ->
  exists fuel0 x, forall fuel, (fuel0 <= fuel)%nat -> gillet_miller_init ceps seps N D d C L mk tsp order score rho dir s fuel = Some x.
Proof.
  intros HN Hs. destruct (seed_starts N order rho s HN Hp Hs) as (starts & Es & Hne & HF).
  destruct (candidates_end _ (runs_valid N dir starts HF)) as (fuel0 & x & A). destruct x as [l|]; exists fuel0; eexists; intros fuel Hle; unfold gillet_miller_init; rewrite Es, (A fuel Hle); reflexivity.
Qed.
End Ends.
End Result.
