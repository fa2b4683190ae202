(** * The sweep: results for sweep_init, sectors, interrupts and counterexamples *)
From Verif Require Import Spec Spec_rfcs Spec_inter Spec_savings Spec_driver PyBase P_base P_util M_util M_psavings M_ssavings M_savfam M_sweep Spec_sweep P_sweep P_sweep2 P_sweep3 P_sweep4 P_ssavings P_savfam P_mj2 P_cvrp.
From Coq Require Import ZifyBool ZifyNat Lia Arith List Permutation.
Import ListNotations.
Local Open Scope Z_scope.

Lemma index_of_in x : forall l, In x l -> exists i, index_of x l = Some i /\ (i < length l)%nat.
Proof.
  induction l as [|y l IH]; intros H; [easy|]. cbn [index_of length]. destruct (Nat.eqb_spec x y) as [->|Hxy]; [exists 0%nat; split; [reflexivity|lia]|].
  destruct H as [->|H]; [easy|]. destruct (IH H) as (i & -> & Hi). exists (S i). cbn. split; [reflexivity|lia].
Qed.
Lemma argmin_some : forall l, l <> [] -> exists i y, argmin l = Some (i, y) /\ (i < length l)%nat.
Proof.
  induction l as [|x l IH]; intros H; [easy|]. cbn [argmin length]. destruct l as [|x' l']; [exists 0%nat, x; cbn; split; [reflexivity|lia]|].
  destruct (IH ltac:(easy)) as (i & y & -> & Hi). destruct (y <? x); eexists; eexists; (split; [reflexivity|lia]).
Qed.
Lemma range_in a b x : In x (range a b) -> (a <= x < b)%nat.
Proof. unfold range. rewrite in_seq. lia. Qed.

Lemma seed_starts N order rho s : (2 <= N)%nat -> Permutation order (seq 1 (N - 1)) -> seed_ok N rho s ->
  exists starts, sw_starts N order rho s = Some starts /\ starts <> [] /\ Forall (fun p => (p < N - 1)%nat) starts.
Proof.
  intros HN Hp. assert (Hl : length order = (N - 1)%nat) by (rewrite (Permutation_length Hp); apply seq_length).
  destruct s as [| | |n|ps]; cbn [seed_ok sw_starts]; intros H.
  - destruct (argmin_some rho) as (i & y & -> & Hi); [intros ->; cbn in H; lia|]. exists [i]. cbn. split; [reflexivity|]. split; [easy|]. repeat constructor. lia.
  - exists [0%nat]. split; [reflexivity|]. split; [easy|]. repeat constructor. lia.
  - exists (range 0 (N - 1)). split; [reflexivity|]. split.
    + unfold range. intros E. apply (f_equal (@length nat)) in E. rewrite seq_length in E. cbn in E. lia.
    + apply Forall_forall. intros x Hx. apply range_in in Hx. lia.
  - destruct (index_of_in (n mod N) order) as (i & -> & Hi).
    + apply (Permutation_in _ (Permutation_sym Hp)), in_seq. assert (G := Nat.mod_upper_bound n N ltac:(lia)). lia.
    + exists [i]. cbn. split; [reflexivity|]. split; [easy|]. repeat constructor. lia.
  - exists ps. split; [reflexivity|]. exact H.
Qed.

Lemma argmin_min l : forall i y, argmin l = Some (i, y) -> (i < length l)%nat /\ y = nth i l 0 /\ forall q, (q < length l)%nat -> nth i l 0 <= nth q l 0 /\ ((q < i)%nat -> nth i l 0 < nth q l 0).
Proof.
  induction l as [|x t IH]; intros i y E; [discriminate|]. cbn [argmin] in E. destruct (argmin t) as [[j z]|] eqn:Et.
  - destruct (IH j z eq_refl) as (H1 & H2 & H3). destruct (Z.ltb_spec z x) as [Hlt|Hge]; injection E as <- <-.
    + split; [cbn; lia|]. split; [exact H2|]. intros [|q] Hq; cbn [nth length] in *; [split; [lia|intros _; lia]|]. destruct (H3 q ltac:(lia)) as [K1 K2]. split; [exact K1|]. intros Hl. apply K2. lia.
    + split; [cbn; lia|]. split; [reflexivity|]. intros [|q] Hq; cbn [nth length] in *; [split; [lia|lia]|]. destruct (H3 q ltac:(lia)) as [K1 _]. split; [lia|lia].
  - injection E as <- <-. split; [cbn; lia|]. split; [reflexivity|]. assert (t = []) as ->. { destruct t as [|a t]; [reflexivity|]. cbn in Et. destruct (argmin t) as [[? ?]|]; [destruct (_ <? _)|]; discriminate. }
    intros [|q] Hq; cbn in *; split; lia.
Qed.
Lemma index_of_spec x l : NoDup l -> forall i p, index_of x l = Some i -> nth_error l p = Some x <-> p = i.
Proof.
  induction l as [|y t IH]; intros Hnd i p E; [discriminate|]. inversion Hnd as [|? ? Hy Ht]; subst. cbn [index_of] in E. destruct (Nat.eqb_spec x y) as [->|Hne].
  - injection E as <-. destruct p as [|p]; cbn; [tauto|]. split; [intros H; apply nth_error_In in H; contradiction|discriminate].
  - destruct (index_of x t) as [j|] eqn:Ej; [|discriminate]. injection E as <-. destruct p as [|p]; cbn; [split; [intros H; injection H as ->; congruence|discriminate]|]. rewrite (IH Ht j p eq_refl). lia.
Qed.
Lemma starts_are N order rho s starts : (2 <= N)%nat -> Permutation order (seq 1 (N - 1)) -> seed_ok N rho s -> sw_starts N order rho s = Some starts ->
  forall p, In p starts <-> starts_at N order rho s p.
Proof.
  intros HN Hp Hs E p. assert (Hnd : NoDup order) by (eapply Permutation_NoDup; [symmetry; exact Hp|apply seq_NoDup]).
  destruct s as [| | |n|ps]; cbn [seed_ok sw_starts starts_at] in *.
  - destruct (argmin rho) as [[i y]|] eqn:Ea; [|discriminate]. injection E as <-. destruct (argmin_min rho i y Ea) as (H1 & _ & H3). rewrite Hs in *. cbn [In fst]. split.
    + intros [<-|[]]. split; [exact H1|exact H3].
    + intros [Hlt Hm]. left. destruct (Nat.lt_trichotomy p i) as [Hl|[Hl|Hl]]; [|congruence|].
      * destruct (H3 p Hlt) as [_ K]. specialize (K Hl). destruct (Hm i H1) as [K2 _]. lia.
      * destruct (Hm i H1) as [_ K]. specialize (K Hl). destruct (H3 p Hlt) as [K2 _]. lia.
  - injection E as <-. cbn. split; [intros [<-|[]]; reflexivity|now left].
  - injection E as <-. cbn in Hs. unfold range. rewrite in_seq. lia.
  - destruct (index_of (n mod N) order) as [i|] eqn:Ei; [|discriminate]. injection E as <-. rewrite (index_of_spec _ _ Hnd i p Ei). cbn. split; [intros [<-|[]]; reflexivity|now left].
  - injection E as <-. reflexivity.
Qed.
Lemma incs_are dir ccw : In ccw (sw_incs dir) <-> goes dir ccw.
Proof. destruct dir, ccw; cbn; intuition congruence. Qed.

Section Facts.
Variables ceps seps : Z.
Variable N : nat.
Variable D : matrix.
Variable d : demands.
Variables C L : limit.
Variable f : routing.
Variable order : list nat.
Hypothesis Hf : solver N D f.
Hypothesis Halone : served_alone N D d C L ceps seps.
Hypothesis Hp : Permutation order (seq 1 (N - 1)).
Hypothesis Hd : forall i, (1 <= i < N)%nat -> 0 <= d i.

Lemma order_nodup : NoDup order.
Proof using Hp. exact (Permutation_NoDup (Permutation_sym Hp) (seq_NoDup _ _)). Qed.
Lemma order_cust x : In x order -> (1 <= x < N)%nat.
Proof using Hp Hd. intros H. apply (Permutation_in x Hp), in_seq in H. lia. Qed.

Lemma runs_valid dir starts : Forall (fun p => (p < N - 1)%nat) starts -> Forall (fun r : bool * nat => (snd r < N - 1)%nat) (sw_runs dir starts).
Proof using Type.
  intros H. unfold sw_runs. apply Forall_forall. intros (inc, p) Hin. apply in_flat_map in Hin. destruct Hin as (i & _ & Hin).
  apply in_map_iff in Hin. destruct Hin as (q & E & Hq). injection E as <- <-. rewrite Forall_forall in H. exact (H q Hq).
Qed.
Lemma runs_in dir starts inc p : In inc (sw_incs dir) -> In p starts -> In (inc, p) (sw_runs dir starts).
Proof using Type. intros H1 H2. unfold sw_runs. apply in_flat_map. exists inc. split; [exact H1|]. apply in_map_iff. exists p. auto. Qed.
Lemma runs_ne dir starts : starts <> [] -> sw_runs dir starts <> [].
Proof using Type. clear. intros H. destruct starts; [easy|]. destruct dir; discriminate. Qed.

Lemma gives_weaken run rs : run_gives ceps seps N D d C L f order run rs -> sweep_gives ceps seps D d C L f order (fst run) (snd run) rs.
Proof using Type. intros (f0 & rts & H1 & H2 & H3). exists f0, rts. split; [exact H1|]. split; [exact H2|]. exact (covers_only N rs (proj1 H3)). Qed.

Lemma prefix_best mk runs k : Forall (fun r : bool * nat => (snd r < N - 1)%nat) runs -> runs <> [] -> (1 <= k)%nat ->
  exists fuel0 rs, (forall fuel, (fuel0 <= fuel)%nat -> sweep_interrupted ceps seps D d C L mk f order runs k fuel = Some (Some (Some (encode rs)))) /\
    serves N D d C L ceps seps rs /\
    (exists run, In run (firstn k runs) /\ sweep_gives ceps seps D d C L f order (fst run) (snd run) rs) /\
    forall run, In run (firstn k runs) -> exists rs', sweep_gives ceps seps D d C L f order (fst run) (snd run) rs' /\ serves N D d C L ceps seps rs' /\ not_beaten mk D rs rs'.
Proof using Hf Halone Hp Hd.
  intros HF Hne Hk.
  assert (HF' : Forall (fun r : bool * nat => (snd r < N - 1)%nat) (firstn k runs)).
  { apply Forall_forall. intros x Hx. rewrite Forall_forall in HF. apply HF. rewrite <- (firstn_skipn k runs). apply in_or_app. now left. }
  destruct (candidates_ok ceps seps N D d C L f order Hf Halone order_nodup order_cust Hd Hp _ HF') as (fuel0 & rss & H1 & H2).
  destruct (best_ok ceps seps N D d C L f order order_cust Hd mk (firstn k runs) rss) as (rs & B1 & B2 & B3 & B4); [|exact H2|].
  { destruct runs; [easy|]. destruct k; [lia|discriminate]. }
  exists fuel0, rs. split; [|split; [exact B2|split; [destruct B3 as (run & R1 & R2); exists run; split; [exact R1|exact (gives_weaken _ _ R2)]|]]].
  - intros fuel Hfu. unfold sweep_interrupted. rewrite (H1 fuel Hfu). cbn [option_map]. now rewrite B1.
  - intros run Hr. assert (exists rs2, run_gives ceps seps N D d C L f order run rs2) as (rs2 & G).
    { clear - H2 Hr. induction H2 as [|x r runs' rss H _ IH]; [easy|]. destruct Hr as [->|Hr]; [exists r; exact H|apply IH, Hr]. }
    exists rs2. split; [exact (gives_weaken _ _ G)|]. split; [destruct G as (? & ? & _ & _ & G); exact G|]. exact (B4 run rs2 Hr G).
Qed.

Lemma init_ok mk rho dir s : (2 <= N)%nat -> seed_ok N rho s ->
  exists fuel0 rs,
    (forall fuel, (fuel0 <= fuel)%nat -> sweep_init ceps seps D d C L mk f order N rho dir s fuel = Some (SwReturns (Some (encode rs)))) /\
    serves N D d C L ceps seps rs /\
    (exists ccw p, goes dir ccw /\ starts_at N order rho s p /\ sweep_gives ceps seps D d C L f order ccw p rs) /\
    forall ccw p, goes dir ccw -> starts_at N order rho s p ->
      exists rs', sweep_gives ceps seps D d C L f order ccw p rs' /\ serves N D d C L ceps seps rs' /\ not_beaten mk D rs rs'.
Proof using Hf Halone Hp Hd.
  intros HN Hs. destruct (seed_starts N order rho s HN Hp Hs) as (starts & E & Hne & HF).
  assert (Hst := starts_are N order rho s starts HN Hp Hs E).
  destruct (prefix_best mk (sw_runs dir starts) (length (sw_runs dir starts)) (runs_valid dir starts HF) (runs_ne dir starts Hne)) as (fuel0 & rs & H1 & H2 & (run & R1 & R2) & H3).
  { destruct (sw_runs dir starts) eqn:Er; [now apply runs_ne in Er|cbn; lia]. }
  exists fuel0, rs. split; [|split; [exact H2|split]].
  - intros fuel Hfu. specialize (H1 fuel Hfu). unfold sweep_interrupted in H1. rewrite firstn_all in H1. unfold sweep_init. rewrite E.
    destruct (sw_candidates _ _ _ _ _ _ _ _ _ _) as [[sols|]|]; cbn [option_map] in H1; try discriminate. injection H1 as ->. reflexivity.
  - rewrite firstn_all in R1. unfold sw_runs in R1. apply in_flat_map in R1 as (inc & I1 & I2). apply in_map_iff in I2 as (p & <- & I3).
    exists inc, p. split; [now apply incs_are|]. split; [now apply Hst|exact R2].
  - intros inc p Hi Hpp. apply (H3 (inc, p)). rewrite firstn_all. apply runs_in; [now apply incs_are|now apply Hst].
Qed.

Lemma rule_ok ccw start : (start < N - 1)%nat ->
  exists arcs final rs1 rs2, circle ccw order start = concat arcs ++ final /\ final <> [] /\
    cut_by_rule (fits ceps seps d C L f) final arcs /\ within C ceps (demand d final) /\
    sweep_gives ceps seps D d C L f order ccw start (rs1 ++ rs2) /\
    Forall2 (tour_of f) arcs rs1 /\ Permutation (concat rs2) final /\
    (within L seps (snd (f (0%nat :: final))) -> exists r, rs2 = [r] /\ tour_of f final r).
Proof using Hf Halone Hp Hd.
  intros Hs. assert (Hs' : (start < length order)%nat) by (rewrite (Permutation_length Hp), seq_length; exact Hs).
  destruct (sweep_ok ceps seps N D d C L f order Hf Halone order_nodup order_cust Hd ccw start Hs') as (fuel0 & routes & H1 & rs & H2 & H3).
  destruct (rule_sweep ceps seps N D d C L f order ccw Hf Halone order_nodup order_cust Hd start Hs' fuel0 routes (H1 fuel0 (le_n _)))
    as (arcs & final & pre & more & E1 & E2 & E3 & E4 & E5 & E6 & E7).
  subst routes. apply Forall2_app_inv_l in H2. destruct H2 as (rs1 & rs2 & F1 & F2 & ->).
  assert (HT : Forall2 (tour_of f) arcs rs1).
  { clear - E6 F1. revert rs1 F1. induction E6 as [|x a pre arcs H _ IH]; intros rs1 F1; inversion F1 as [|? ? ? ? G1 G2]; subst; constructor.
    - unfold tour_of. rewrite <- H. apply G1.
    - apply IH, G2. }
  exists arcs, final, rs1, rs2. split; [exact E1|]. split; [exact E2|]. split; [exact E3|]. split; [exact E4|]. split.
  { exists fuel0, (pre ++ more). split; [exact H1|]. split.
    - apply (sweep_sol_ok ceps seps N D d C L order order_nodup order_cust Hd); [apply Forall2_app; assumption|exact H3].
    - apply covers_only with N. exact (Permutation_trans H3 Hp). }
  split; [exact HT|]. split.
  - assert (HP1 : Permutation (concat rs1) (concat arcs)).
    { assert (Hsub : forall a, In a arcs -> a <> [] /\ NoDup a /\ forall j, In j a -> (1 <= j < N)%nat).
      { intros a Ha. split; [|split].
        - clear - E3 Ha. induction E3 as [|b arcs x after G1 G2 G3 G4 _ IH]; [easy|]. destruct Ha as [<-|Ha]; [exact G1|apply IH, Ha].
        - assert (G := Permutation_NoDup (Permutation_sym (circle_perm ccw order start)) order_nodup). rewrite E1 in G. apply NoDup_app_remove_r in G.
          clear - G Ha. induction arcs as [|b arcs IH]; [easy|]. cbn in G. destruct Ha as [<-|Ha]; [apply NoDup_app_remove_r in G; exact G|apply NoDup_app_remove_l in G; apply IH; assumption].
        - intros j Hj. apply order_cust, (Permutation_in j (circle_perm ccw order start)). rewrite E1. apply in_or_app. left. apply in_concat. exists a. auto. }
      clear - HT Hsub Hf. induction HT as [|a r arcs rs1 H _ IH]; [constructor|]. cbn [concat]. apply Permutation_app.
      - destruct (Hsub a (or_introl eq_refl)) as (G1 & G2 & G3). destruct (Hf a G1 G2 G3) as (l' & El & Hl). unfold tour_of in H. rewrite El in H. cbn [fst] in H.
        injection H as H. apply app_inv_tail in H. subst l'. exact Hl.
      - apply IH. intros b Hb. apply Hsub. now right. }
    rewrite concat_app in H3. apply Permutation_app_inv_l with (concat arcs). rewrite <- E1.
    eapply Permutation_trans; [|apply Permutation_sym, circle_perm].
    eapply Permutation_trans; [|exact H3]. apply Permutation_app_tail, Permutation_sym, HP1.
  - intros HL. destruct (E7 HL) as (r & -> & Er). inversion F2 as [|? l ? ? G1 G2]; subst. inversion G2; subst. exists l. split; [reflexivity|].
    unfold tour_of. rewrite <- Er. apply G1.
Qed.
End Facts.

Lemma in_sweep_order_solver N D : solver N D (in_sweep_order D).
Proof. intros l _ _ _. exists l. split; [|reflexivity]. unfold in_sweep_order. rewrite objf_path. reflexivity. Qed.

Lemma seed_depot ceps seps N D d C L mk f order rho dir n : (forall x, In x order -> (1 <= x)%nat) -> (n mod N = 0)%nat ->
  forall fuel, sweep_init ceps seps D d C L mk f order N rho dir (SeedNode n) fuel = Some SwRaises.
Proof.
  intros H Hn fuel. unfold sweep_init, sw_starts. rewrite Hn. replace (index_of 0 order) with (@None nat); [reflexivity|].
  symmetry. induction order as [|x l IH]; [reflexivity|]. cbn [index_of]. assert (G := H x (or_introl eq_refl)). destruct x; [lia|].
  cbn [Nat.eqb]. rewrite IH; [reflexivity|]. intros y Hy. apply H. now right.
Qed.

Lemma sectors_ok ceps seps N D d C f order : solver N D f -> served_alone N D d C None ceps seps -> Permutation order (seq 1 (N - 1)) ->
  (forall i, (1 <= i < N)%nat -> 0 <= d i) ->
  forall ccw start, (start < N - 1)%nat ->
  exists arcs final rs r, circle ccw order start = concat arcs ++ final /\ final <> [] /\
    cut_by_rule (fits ceps seps d C None f) final arcs /\ within C ceps (demand d final) /\
    sweep_gives ceps seps D d C None f order ccw start (rs ++ [r]) /\
    Forall2 (tour_of f) arcs rs /\ tour_of f final r.
Proof.
  intros H1 H2 H3 H4 ccw start Hs. destruct (rule_ok ceps seps N D d C None f order H1 H2 H3 H4 ccw start Hs) as (arcs & final & rs1 & rs2 & A1 & A2 & A3 & A4 & A5 & A6 & A7 & A8).
  destruct (A8 I) as (r & -> & Hr). exists arcs, final, rs1, r. do 6 (split; [assumption|]). exact Hr.
Qed.
Lemma nothing_yet ceps seps D d C L mk f order runs fuel : sweep_interrupted ceps seps D d C L mk f order runs 0 fuel = Some (Some None).
Proof. reflexivity. Qed.
