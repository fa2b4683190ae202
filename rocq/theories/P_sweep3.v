(** * The sweep returns the best of its runs *)
From Verif Require Import Spec Spec_rfcs Spec_inter Spec_savings Spec_driver PyBase P_base P_util M_util M_psavings M_ssavings M_savfam M_sweep Spec_sweep P_sweep P_sweep2 P_ssavings P_savfam P_mj2 P_cvrp P_mj3.
From Coq Require Import ZifyBool ZifyNat Lia Arith List Permutation.
Import ListNotations.
Local Open Scope Z_scope.

Section Mono.
Variables ceps seps : Z.
Variable D : matrix.
Variable d : demands.
Variables C L : limit.
Variable f : routing.
Variable order : list nat.
Variable ccw alt : bool.

Lemma ensure_mono : forall fuel k p fp r routed x, ensure_L seps d C L f order ccw fuel p fp r routed = Some x ->
  ensure_L seps d C L f order ccw (fuel + k) p fp r routed = Some x.
Proof.
  induction fuel as [|fuel IH]; intros k p fp r routed x H.
  - cbn [ensure_L] in H. destruct (negb (exceeds L seps (sr_cost r))) eqn:E; [|discriminate].
    destruct k; cbn [Nat.add ensure_L]; rewrite E; exact H.
  - cbn [Nat.add ensure_L] in *. destruct (negb (exceeds L seps (sr_cost r))); [exact H|].
    cbv zeta in *. destruct (mem _ _); apply IH; exact H.
Qed.

Lemma iter_mono fuel k st x : sw_iter ceps seps D d C L f order ccw alt fuel st = Some x -> sw_iter ceps seps D d C L f order ccw alt (fuel + k) st = Some x.
Proof.
  unfold sw_iter. match goal with |- context [let '(b, c) := ?m in _] => destruct m as (bound1, complete2) end.
  destruct (complete2 || _); [|trivial]. destruct (is_set L); [|trivial].
  destruct (ensure_L seps d C L f order ccw fuel _ _ _ _) as [[[p r] routed]|] eqn:E; [|discriminate].
  rewrite (ensure_mono _ k _ _ _ _ _ E). trivial.
Qed.

Lemma loop_mono : forall fuel fuelL k st x, sw_loop ceps seps D d C L f order ccw alt fuelL fuel st = Some x ->
  sw_loop ceps seps D d C L f order ccw alt (fuelL + k) (fuel + k) st = Some x.
Proof.
  induction fuel as [|fuel IH]; intros fuelL k st x H; [discriminate|]. cbn [Nat.add sw_loop] in *.
  destruct (sw_iter ceps seps D d C L f order ccw alt fuelL st) as [[routes|st']|] eqn:E; [| |discriminate]; rewrite (iter_mono _ k _ _ E).
  - exact H.
  - apply IH, H.
Qed.

Lemma sweep_mono fuel fuel' start x : (fuel <= fuel')%nat -> do_one_sweep ceps seps D d C L f order ccw alt start fuel = Some x ->
  do_one_sweep ceps seps D d C L f order ccw alt start fuel' = Some x.
Proof.
  intros Hle. unfold do_one_sweep. destruct (nth_error order start); [|trivial]. intros H.
  destruct (sw_loop ceps seps D d C L f order ccw alt fuel fuel _) as [r|] eqn:E; [|discriminate].
  replace fuel' with (fuel + (fuel' - fuel))%nat by lia. rewrite (loop_mono _ _ _ _ _ E). exact H.
Qed.
End Mono.

Section Sweep.
Variables ceps seps : Z.
Variable N : nat.
Variable D : matrix.
Variable d : demands.
Variables C L : limit.
Variable f : routing.
Variable order : list nat.
Hypothesis Hf : solver N D f.
Hypothesis Halone : served_alone N D d C L ceps seps.
Hypothesis Hnd : NoDup order.
Hypothesis Hcust : forall x, In x order -> (1 <= x < N)%nat.
Hypothesis Hd : forall i, (1 <= i < N)%nat -> 0 <= d i.
Notation len := (length order).
Notation finished := (finished ceps seps D d C L).

Lemma loop_ok ccw fuelL : (len * S len <= fuelL)%nat -> forall m st rs, sw_inv ceps seps D d C L order st rs -> (sw_measure order st rs < m)%nat ->
  exists routes, sw_loop ceps seps D d C L f order ccw false fuelL m st = Some routes /\ sw_done ceps seps D d C L order routes.
Proof using Hf Halone Hnd Hcust Hd.
  intros HfL. induction m as [|m IH]; intros st rs HI Hm; [lia|]. cbn [sw_loop].
  destruct (iter_ok ceps seps N D d C L f order ccw Hf Halone Hnd Hcust Hd fuelL st rs HfL HI) as [(routes & E & H)|(st' & rs' & E & H & Hlt)]; rewrite E.
  - exists routes. auto.
  - apply (IH st' rs' H). lia.
Qed.

Lemma sweep_ok ccw start : (start < len)%nat ->
  exists fuel0 routes, (forall fuel, (fuel0 <= fuel)%nat -> do_one_sweep ceps seps D d C L f order ccw false start fuel = Some (Some routes)) /\
    exists rs, Forall2 finished routes rs /\ Permutation (concat rs) order.
Proof using Hf Halone Hnd Hcust Hd.
  intros Hs. destruct (nth_error order start) as [n|] eqn:E; [|apply nth_error_None in E; lia].
  set (st0 := mksw start (Some n) [] (fun x => Nat.eqb x 0) 0 sr_new 0 false).
  assert (HI : sw_inv ceps seps D d C L order st0 []).
  { constructor; unfold st0; cbn [sw_routes sw_routed sw_count sw_current sw_pos sw_node sw_complete].
    - constructor; cbn [concat sr_set sr_new app].
      + constructor.
      + constructor.
      + intros x [].
      + intros x Hx. apply Hcust in Hx. cbn. destruct x; [lia|reflexivity].
      + reflexivity.
      + intros _. reflexivity.
      + easy.
    - exact Hs.
    - split; [reflexivity|]. split; [|intros []]. unfold node_at. symmetry. exact (nth_error_nth order start 0%nat E). }
  set (fuel0 := (len * S len + S (sw_measure order st0 []))%nat).
  destruct (loop_ok ccw fuel0 ltac:(lia) fuel0 st0 [] HI ltac:(lia)) as (routes & El & Hd').
  exists fuel0, routes. split; [|exact Hd']. intros fuel Hfu. apply (sweep_mono _ _ _ _ _ _ _ _ _ _ fuel0 fuel); [exact Hfu|].
  unfold do_one_sweep. rewrite E. fold st0. rewrite El. reflexivity.
Qed.

Lemma sweep_sol_ok routes rs : Forall2 finished routes rs -> Permutation (concat rs) order -> sweep_sol routes = encode rs.
Proof using Hnd Hcust Hd.
  intros H1 H2. unfold sweep_sol. replace (flat_map _ _ ++ [0%nat]) with (encode rs).
  - rewrite without_empty.
    + f_equal. apply filter_id. assert (forall r, In r rs -> r <> []).
      { clear - H1. induction H1 as [|r l rts rs (_ & H & _) _ IH]; intros x Hx; [easy|]. destruct Hx as [<-|Hx]; [exact H|apply IH, Hx]. }
      apply Forall_forall. exact H.
    + split; [exact (Permutation_NoDup (Permutation_sym H2) Hnd)|]. apply Forall_forall. intros x Hx.
      apply (Permutation_in x H2), Hcust in Hx. lia.
  - rewrite encode_cyclic. f_equal. clear - H1. induction H1 as [|r l rts rs (H & _) _ IH]; [reflexivity|]. cbn [flat_map cyclic].
    rewrite H, <- IH, app_comm_cons, removelast_last. reflexivity.
Qed.

Lemma run_ok ccw start : Permutation order (seq 1 (N - 1)) -> (start < N - 1)%nat ->
  exists fuel0 routes rs, (forall fuel, (fuel0 <= fuel)%nat -> do_one_sweep ceps seps D d C L f order ccw false start fuel = Some (Some routes)) /\
    sweep_sol routes = encode rs /\ serves N D d C L ceps seps rs.
Proof using Hf Halone Hnd Hcust Hd.
  intros Hp Hs. destruct (sweep_ok ccw start) as (fuel0 & routes & H1 & rs & H2 & H3).
  { rewrite (Permutation_length Hp), seq_length. exact Hs. }
  exists fuel0, routes, rs. split; [exact H1|]. split; [apply sweep_sol_ok; assumption|].
  split; [exact (Permutation_trans H3 Hp)|]. clear - H2. split; induction H2 as [|r l rts rs (_ & G1 & G2) _ IH]; constructor; assumption.
Qed.

(** What a single run gives *)
Definition run_gives (run : bool * nat) (rs : list (list nat)) : Prop :=
  exists fuel0 routes, (forall fuel, (fuel0 <= fuel)%nat -> do_one_sweep ceps seps D d C L f order (fst run) false (snd run) fuel = Some (Some routes)) /\
    sweep_sol routes = encode rs /\ serves N D d C L ceps seps rs.

Lemma candidates_ok : Permutation order (seq 1 (N - 1)) -> forall runs, Forall (fun r => (snd r < N - 1)%nat) runs ->
  exists fuel0 rss, (forall fuel, (fuel0 <= fuel)%nat -> sw_candidates ceps seps D d C L f order runs fuel = Some (Some (map encode rss))) /\
    Forall2 run_gives runs rss.
Proof using Hf Halone Hnd Hcust Hd.
  intros Hp. induction runs as [|(ccw, start) runs IH]; intros HF.
  - exists 0%nat, []. split; [reflexivity|constructor].
  - inversion HF as [|? ? F1 F2]; subst. destruct (IH F2) as (fa & rss & A1 & A2). destruct (run_ok ccw start Hp F1) as (fb & routes & rs & B1 & B2 & B3).
    exists (fa + fb)%nat, (rs :: rss). split.
    + intros fuel Hfu. cbn [sw_candidates map]. rewrite (B1 fuel) by lia. rewrite (A1 fuel) by lia. now rewrite B2.
    + constructor; [|exact A2]. exists fb, routes. auto.
Qed.

Lemma best_ok mk runs rss : runs <> [] -> Forall2 run_gives runs rss ->
  exists rs, sw_best D mk (map encode rss) = Some (encode rs) /\ serves N D d C L ceps seps rs /\
    (exists run, In run runs /\ run_gives run rs) /\
    forall run rs', In run runs -> run_gives run rs' -> not_beaten mk D rs rs'.
Proof using Hcust Hd.
  intros Hne HF.
  destruct (best_sols mk D (map (fun rs => (tt, rs)) rss)) as (u & rs & H1 & H2 & H3).
  - destruct HF; [easy|discriminate].
  - rewrite Forall_map. clear Hne. induction HF as [|run rs runs rss (f0 & rts & _ & _ & Hs) _ IH]; constructor; [|exact IH].
    cbn [snd]. eapply covers_only, (proj1 Hs).
  - exists rs. unfold sw_best, sols in *. rewrite map_map in H2. rewrite map_map. cbn [fst snd] in H2.
    rewrite H2. split; [reflexivity|].
    assert (Hin : In rs rss). { apply in_map_iff in H1. destruct H1 as (x & E & Hx). now injection E as _ ->. }
    assert (Hgi : exists run, In run runs /\ run_gives run rs).
    { clear - HF Hin. induction HF as [|run r runs rss H _ IH]; [easy|]. destruct Hin as [->|Hin].
      - exists run. split; [now left|exact H].
      - destruct (IH Hin) as (x & Hx & G). exists x. split; [now right|exact G]. }
    split; [destruct Hgi as (run & _ & f0 & rts & _ & _ & Hs); exact Hs|]. split; [exact Hgi|].
    intros run rs' Hr (f1 & rts1 & G1 & G2 & G3).
    (* the run gives only one solution *)
    assert (exists rs2, In rs2 rss /\ run_gives run rs2) as (rs2 & Hin2 & (f2 & rts2 & K1 & K2 & K3)).
    { clear - HF Hr. induction HF as [|x r runs rss H _ IH]; [easy|]. destruct Hr as [->|Hr].
      - exists r. split; [now left|exact H].
      - destruct (IH Hr) as (y & Hy & G). exists y. split; [now right|exact G]. }
    assert (E : Some (Some rts1) = Some (Some rts2)).
    { rewrite <- (G1 (f1 + f2)%nat) by lia. rewrite <- (K1 (f1 + f2)%nat) by lia. reflexivity. }
    injection E as ->. assert (Ee : encode rs' = encode rs2) by congruence.
    apply encode_inj in Ee; [|eapply covers_only, (proj1 G3)|eapply covers_only, (proj1 K3)]. subst rs2.
    apply (H3 tt). apply in_map_iff. exists rs'. auto.
Qed.
End Sweep.
