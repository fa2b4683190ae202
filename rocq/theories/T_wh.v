(** * Properties C82, C83, C84 and C85: Wren and Holliday's heuristic *)
From Verif Require Import Spec Spec_inter Spec_savings PyBase M_util M_sweep M_wh Spec_wh P_wh8 P_wh9.
Require Import Lia.

(** ** C82 *)

(** Whatever it returns serves everybody once and is within the limits.  It is what one of the sweeps was
    improved to, and nothing that another sweep was improved to beats it. *)
Theorem C82_result :
  forall eps N D d C L order overlap gap set_order minimize_K full_convergence sweeps fuel r,
    wh_instance eps N D d C L order gap set_order -> good_sweeps N sweeps -> sweeps <> [] ->
    wren_holliday_init eps N D d C L order overlap gap set_order minimize_K full_convergence sweeps fuel = Some r ->
    exists rss0 rss rs,
      r = WhReturns (Some (encode rs)) /\ serves N D d C L eps eps rs /\ In rs rss /\
      Forall2 (swept eps N D d C L order) sweeps rss0 /\
      Forall2 (improved eps N D d C L order overlap gap set_order minimize_K full_convergence) rss0 rss /\
      Forall (not_beaten minimize_K D rs) rss.
Proof.
  intros eps N D d C L order overlap gap set_order minimize_K full_convergence sweeps fuel r HW Hs Hn E.
  destruct (result _ _ _ _ _ _ _ _ _ _ _ _ HW _ _ _ Hs Hn E) as (rss0 & rss & rs & F0 & FI & V0 & V1 & Er & Hin & Hb & _).
  exists rss0, rss, rs. repeat split; auto; rewrite Forall_forall in V1; now apply V1.
Qed.
Print Assumptions C82_result.

Example C82_case :
  wh_instance 0 7 crossing crossing_loads (Some 7) None (seq 1 6) first_gap as_listed /\ good_sweeps 7 [(true, 0); (false, 2)]%nat /\
  wren_holliday_init 0 7 crossing crossing_loads (Some 7) None (seq 1 6) overlapping first_gap as_listed false true [(true, 0); (false, 2)]%nat 40 =
    Some (WhReturns (Some [0; 1; 2; 0; 3; 5; 0; 6; 4; 0]%nat)).
Proof. split; [exact crossing_ok|]. split; [repeat constructor; cbn; lia|]. vm_compute. reflexivity. Qed.

(** ** C83 *)

(** When it is told to save routes first, none of the sweeps it starts from beats what it returns. *)
Theorem C83_never_worse :
  forall eps N D d C L order overlap gap set_order full_convergence sweeps fuel r,
    wh_instance eps N D d C L order gap set_order -> good_sweeps N sweeps -> sweeps <> [] ->
    wren_holliday_init eps N D d C L order overlap gap set_order true full_convergence sweeps fuel = Some r ->
    exists rss0 rs, r = WhReturns (Some (encode rs)) /\ Forall2 (swept eps N D d C L order) sweeps rss0 /\ Forall (not_beaten true D rs) rss0.
Proof.
  intros eps N D d C L order overlap gap set_order full_convergence sweeps fuel r HW Hs Hn E.
  destruct (result _ _ _ _ _ _ _ _ _ _ _ _ HW _ _ _ Hs Hn E) as (rss0 & rss & rs & F0 & _ & _ & _ & Er & _ & _ & Hb).
  exists rss0, rs. auto.
Qed.
Print Assumptions C83_never_worse.

(** By default it can be: the improvement steps insert customers elsewhere to close a route even when that is longer. *)
Theorem C83_default_refuted :
  ~ (forall eps N D d C L order overlap gap set_order full_convergence sweeps fuel rs rss0,
      wh_instance eps N D d C L order gap set_order -> good_sweeps N sweeps ->
      wren_holliday_init eps N D d C L order overlap gap set_order false full_convergence sweeps fuel = Some (WhReturns (Some (encode rs))) ->
      Forall2 (swept eps N D d C L order) sweeps rss0 -> Forall (not_beaten false D rs) rss0).
Proof.
  intros H. destruct (star_worse true) as (rs0 & rs & fuel & Hs & E & Hb).
  specialize (H 0 5%nat star star_loads (Some 3) None (seq 1 4) apart first_gap as_listed true [(true, 0%nat)] fuel rs [rs0] star_ok
    ltac:(repeat constructor; cbn; lia) E ltac:(repeat constructor; exact Hs)).
  inversion H as [|? ? H1 _]. now apply H1.
Qed.
Print Assumptions C83_default_refuted.

Example C83_case :
  wh_instance 0 7 crossing crossing_loads (Some 7) None (seq 1 6) first_gap as_listed /\
  swept 0 7 crossing crossing_loads (Some 7) None (seq 1 6) (true, 0%nat) [[1; 2]; [3; 4]; [5; 6]]%nat /\
  exists sol, wren_holliday_init 0 7 crossing crossing_loads (Some 7) None (seq 1 6) overlapping first_gap as_listed true true [(true, 0%nat)] 40 = Some (WhReturns (Some sol)).
Proof. split; [exact crossing_ok|]. split; [exists 40%nat; vm_compute; reflexivity|]. eexists. vm_compute. reflexivity. Qed.

(** ** C84 *)

(** It ends when it is told to save routes first. *)
Theorem C84_ends :
  forall eps N D d C L order overlap gap set_order full_convergence sweeps,
    wh_instance eps N D d C L order gap set_order -> good_sweeps N sweeps ->
    exists fuel0 r, forall fuel, (fuel0 <= fuel)%nat ->
      wren_holliday_init eps N D d C L order overlap gap set_order true full_convergence sweeps fuel = Some r.
Proof. intros. now apply ends. Qed.
Print Assumptions C84_ends.

(** In any case each turn of its loop ends. *)
Theorem C84_every_turn_ends :
  forall eps N D d C L order overlap gap set_order minimize_K full_convergence rs0 n,
    wh_instance eps N D d C L order gap set_order -> serves N D d C L eps eps rs0 ->
    exists fuel0 t,
      (forall fuel, (fuel0 <= fuel)%nat ->
         after_turns eps N D d C L order overlap gap set_order minimize_K full_convergence n fuel (before_turns D d rs0) = t) /\
      forall st, t <> Unfinished st.
Proof. intros. now apply every_turn_ends. Qed.
Print Assumptions C84_every_turn_ends.

(** By default it may run for ever, whether or not it is told to go on until nothing improves. *)
Theorem C84_default_refuted :
  forall full_convergence,
  ~ (forall eps N D d C L order overlap gap set_order sweeps,
      wh_instance eps N D d C L order gap set_order -> good_sweeps N sweeps ->
      exists fuel r, wren_holliday_init eps N D d C L order overlap gap set_order false full_convergence sweeps fuel = Some r).
Proof.
  intros fc H. destruct (H 0 7%nat roundabout parcels (Some 6) None (seq 1 6) apart first_gap as_listed [(true, 0%nat)] roundabout_ok
    ltac:(repeat constructor; cbn; lia)) as (fuel & r & E).
  rewrite round_never in E. discriminate.
Qed.
Print Assumptions C84_default_refuted.

Example C84_case :
  wh_instance 0 7 roundabout parcels (Some 6) None (seq 1 6) first_gap as_listed /\
  wren_holliday_init 0 7 roundabout parcels (Some 6) None (seq 1 6) apart first_gap as_listed true true [(true, 0); (false, 4)]%nat 40 = Some (WhReturns (Some [0; 1; 5; 0; 2; 3; 6; 0; 4; 0]%nat)).
Proof. split; [exact roundabout_ok|]. vm_compute. reflexivity. Qed.

(** ** C85 *)

(** Interrupted while it improves a sweep, it hands over one of the solutions it had finished or the one it was
    working on.  All routes are within the limits and none visits a customer twice, and no finished solution beats it. *)
Theorem C85_partial_plan :
  forall eps N D d C L order overlap gap set_order minimize_K full_convergence rss rs0 rds,
    wh_instance eps N D d C L order gap set_order -> Forall (serves N D d C L eps eps) rss -> serves N D d C L eps eps rs0 ->
    seen eps N D d C L order overlap gap set_order minimize_K full_convergence (encode rs0) rds ->
    exists rs, interrupted_at D minimize_K (map encode rss) rds = Some (encode rs) /\ partial_plan eps N D d C L rs /\
      (In rs rss \/ to_sol rds = encode rs) /\ Forall (not_beaten minimize_K D rs) rss.
Proof. intros. now apply interrupted with order overlap gap set_order full_convergence rs0. Qed.
Print Assumptions C85_partial_plan.

(** Interrupted during the sweeps, it hands over the best of those it has finished, if any. *)
Theorem C85_sweeps :
  forall eps N D d C L order gap set_order minimize_K sweeps k,
    wh_instance eps N D d C L order gap set_order -> good_sweeps N sweeps -> sweeps <> [] ->
    exists rss, Forall2 (swept eps N D d C L order) sweeps rss /\
      (k = 0%nat -> phase_one_interrupted D minimize_K (map encode rss) k = None) /\
      (k <> 0%nat -> exists rs, phase_one_interrupted D minimize_K (map encode rss) k = Some (encode rs) /\ In rs (firstn k rss) /\
         serves N D d C L eps eps rs /\ Forall (not_beaten minimize_K D rs) (firstn k rss)).
Proof.
  intros eps N D d C L order gap set_order minimize_K sweeps k HW Hs Hn.
  destruct (interrupted_early eps N D d C L order apart gap set_order minimize_K HW sweeps k Hs Hn) as (rss & F & _ & H). exists rss. tauto.
Qed.
Print Assumptions C85_sweeps.

(** The solution handed over need not serve everybody, even when another one that does is finished. *)
Theorem C85_complete_refuted :
  ~ (forall eps N D d C L order overlap gap set_order minimize_K full_convergence done rss0 rss s rs0 rds rs,
      wh_instance eps N D d C L order gap set_order -> good_sweeps N (s :: done) -> done <> [] ->
      Forall2 (swept eps N D d C L order) done rss0 ->
      Forall2 (improved eps N D d C L order overlap gap set_order minimize_K full_convergence) rss0 rss ->
      swept eps N D d C L order s rs0 ->
      seen eps N D d C L order overlap gap set_order minimize_K full_convergence (encode rs0) rds ->
      interrupted_at D minimize_K (map encode rss) rds = Some (encode rs) ->
      forall i, (1 <= i < N)%nat -> In i (concat rs)).
Proof.
  intros H. destruct round_lost as (rs0 & rs1 & rds & rs & Hs & Hs0 & Hi & Hseen & E & Hout). apply Hout.
  apply (H 0 7%nat roundabout parcels (Some 6) None (seq 1 6) apart first_gap as_listed true true [(true, 0%nat)] [round_start] [rs1] (true, 3%nat) rs0 rds rs);
    [exact roundabout_ok|repeat constructor; cbn; lia|discriminate|repeat constructor; assumption|repeat constructor; assumption|assumption..|lia].
Qed.
Print Assumptions C85_complete_refuted.

(** Nor are its routes always disjoint. *)
Theorem C85_disjoint_refuted :
  ~ (forall eps N D d C L order overlap gap set_order minimize_K full_convergence s rs0 rds rs,
      wh_instance eps N D d C L order gap set_order -> good_sweeps N [s] ->
      swept eps N D d C L order s rs0 ->
      seen eps N D d C L order overlap gap set_order minimize_K full_convergence (encode rs0) rds ->
      interrupted_at D minimize_K [] rds = Some (encode rs) ->
      NoDup (concat rs)).
Proof.
  intros H. destruct crossing_twice as (rs0 & rds & rs & Hs & Hseen & E & Hc).
  assert (G : NoDup (concat rs)) by (eapply (H 0 7%nat crossing crossing_loads); [exact crossing_ok| |exact Hs|exact Hseen|exact E]; repeat constructor; cbn; lia).
  pose proof (proj1 (NoDup_count_occ Nat.eq_dec (concat rs)) G 3%nat). lia.
Qed.
Print Assumptions C85_disjoint_refuted.

Example C85_case :
  exists rss rs0 rds, wh_instance 0 7 roundabout parcels (Some 6) None (seq 1 6) first_gap as_listed /\ Forall (serves 7 roundabout parcels (Some 6) None 0 0) rss /\
    rss <> [] /\ serves 7 roundabout parcels (Some 6) None 0 0 rs0 /\ seen 0 7 roundabout parcels (Some 6) None (seq 1 6) apart first_gap as_listed true true (encode rs0) rds.
Proof.
  exists [round_start], round_start. eexists.
  assert (V : serves 7 roundabout parcels (Some 6) None 0 0 round_start).
  { split; [unfold covers; cbn [seq]; apply NoDup_Permutation; [repeat constructor; cbn; intuition lia|apply (seq_NoDup 6 1)|intros x; cbn; intuition lia]|].
    split; [repeat constructor; discriminate|]. repeat constructor; vm_compute; intros _; discriminate. }
  split; [exact roundabout_ok|]. split; [constructor; [exact V|constructor]|]. split; [discriminate|]. split; [exact V|]. exists 20%nat. cbv zeta. left. reflexivity.
Qed.
