(** * The heuristics that need Gurobi through the uniform interface: proofs *)
From Verif Require Import Spec_rfcs Spec_savings Spec_inter Spec_polar Spec_mbsa Spec_gap Spec_petal Spec_algos3 Spec_all PyBase M_util M_mbsa M_gap M_petal M_sweep M_polar M_text M_cli2
  P_mbsa3 P_mbsa4 P_gap3 P_gap4 P_gap5 P_petal9 P_polar M_algos M_cli M_algos3 Spec.
From Coq Require Import ZifyBool ZifyNat Lia Arith List Permutation.
Import ListNotations.
Local Open Scope Z_scope.

Lemma mm_returns f mm eps N D d C L : Spec_all.problem N D d C L eps -> solver N D f ->
  (forall sv n x, mm sv n = MipOptimal x -> optimal sv x) -> forall single minimize_K fuel s,
  mm_call f mm eps N D d C L single minimize_K fuel = Some (Returns s) ->
  exists rs, s = Some (encode rs) /\ serves N D d C L eps eps rs.
Proof.
  intros HP Hf Hm single mk fuel s H. unfold mm_call in H. destruct (mbsa_init _ _ _ _ _ _ _ _ _ _ _ _ _) as [[sol| | |[]]|] eqn:E; try discriminate H.
  cbn in H. injection H as <-. destruct HP. destruct (mbsa_result eps eps N D d C L mk 0 f true mm pb_demand0 pb_size Hf pb_alone Hm fuel sol E) as (gs & rs & A & B & _).
  exists rs. split; [now rewrite A|exact B].
Qed.
Lemma mm_call_ends f mm eps N D d C L : Spec_all.problem N D d C L eps -> solver N D f ->
  (forall sv n x, mm sv n = MipOptimal x -> optimal sv x) -> (forall sv n, exists x, mm sv n = MipOptimal x) ->
  ~ within C eps (demand d (seq 1 (N - 1))) -> forall single minimize_K, minimize_K = true \/ joins_never_cost N f ->
  exists rs, serves N D d C L eps eps rs /\ ends_with (mm_call f mm eps N D d C L single minimize_K) (Returns (Some (encode rs))).
Proof.
  intros HP Hf Hm Hs HC single mk Hk. pose proof HP as []. destruct (mbsa_returns eps eps N D d C L mk 0 f true mm pb_demand0 pb_size Hf pb_alone Hm Hs Hk HC) as (sol & Hsol).
  assert (Hc : forall fuel, (N <= fuel)%nat -> mm_call f mm eps N D d C L single mk fuel = Some (Returns (Some sol))).
  { intros fuel Hfu. unfold mm_call. now rewrite (Hsol fuel Hfu). }
  destruct (mm_returns f mm eps N D d C L HP Hf Hm single mk N _ (Hc N (le_n _))) as (rs & E & Hrs). injection E as ->.
  exists rs. split; [exact Hrs|]. exists N. exact Hc.
Qed.

Lemma gap_returns f edges seeds half_st gurobi eps N D d C L : Spec_all.problem N D d C L eps -> solver N D f -> gap_honest gurobi ->
  (forall l, L = Some l -> 0 <= l) ->
  forall single minimize_K, exists o, ends_with (gap_call f edges seeds half_st gurobi eps N D d C L single minimize_K) o /\
    (forall s, o = Returns (Some s) \/ o = Interrupt (Some s) -> exists rs, s = encode rs /\ serves N D d C L eps eps rs).
Proof.
  intros HP Hf Hg HL single mk. pose proof HP as [].
  assert (HE : exists fuel0 r, forall fuel, (fuel0 <= fuel)%nat -> gap_init eps N D d C L f edges seeds half_st gurobi None mk (negb single) true false fuel = Some r).
  { eapply ends; [lia|]. intros _ _ l E. destruct L as [v|]; [|discriminate]. cbn in E. destruct (Z.eqb_spec v 0); [discriminate|]. injection E as <-. specialize (HL v eq_refl). lia. }
  destruct HE as (fuel0 & r & Hr). exists (of_gap r). split.
  - exists fuel0. intros fuel Hfu. unfold gap_call. now rewrite (Hr fuel Hfu).
  - intros s Hs. assert (X : exists found, r = GapReturns (Some s) found \/ r = GapInterrupted (Some s) found).
    { destruct r as [s' fo|s' fo|]; cbn [of_gap] in Hs; destruct Hs as [Hs|Hs]; try discriminate Hs; injection Hs as ->; exists fo; tauto. }
    destruct X as (found & X).
    assert (Q : exists rss, found_are D found rss /\ Forall (serves N D d C L eps eps) rss /\ best_among mk D (Some s) rss).
    { eapply result; try eassumption; [lia|apply (Hr fuel0); lia]. }
    destruct Q as (rss & _ & F & B).
    destruct B as (rs & -> & Hin & _). exists rs. split; [reflexivity|]. rewrite Forall_forall in F. now apply F.
Qed.
Lemma gap_call_ends f edges seeds half_st gurobi eps N D d c L : Spec_all.problem N D d (Some c) L eps -> solver N D f -> gap_honest gurobi -> gap_patient gurobi ->
  ~ limit_set L -> 0 < c -> (forall i, (1 <= i < N)%nat -> d i <= c) -> 0 < demand d (seq 1 (N - 1)) -> (forall K t, (1 <= K)%nat -> seeds K t <> None) ->
  forall single, exists rs, ends_with (gap_call f edges seeds half_st gurobi eps N D d (Some c) L single true) (Returns (Some (encode rs))) /\
    serves N D d (Some c) L eps eps rs /\ forall rs', packs N d c rs' -> (length rs <= length rs')%nat.
Proof.
  intros HP Hf Hg Hg2 HL Hc Hd Hpos Hse single. pose proof HP as [].
  destruct (fewest eps N D d c L f edges seeds half_st gurobi (negb single) true) as (rs & found & fuel0 & H1 & H2 & H3); try assumption.
  { intros i Hi. split; [apply pb_demand|now apply Hd]. }
  exists rs. split; [|now split]. exists fuel0. intros fuel Hfu. unfold gap_call. now rewrite (H1 fuel Hfu).
Qed.

Section Ptl.
Variables gurobi feas_relax : scp -> status.
Hypothesis HA1 : answers gurobi.
Hypothesis HA2 : answers feas_relax.
Lemma covering_answers a r fb al K : exists l fe, solve_set_covering gurobi feas_relax a r fb al K = M_petal.Answer l fe.
Proof.
  unfold solve_set_covering. match goal with |- context[gurobi ?p] => destruct (HA1 p) as [A B], (HA2 p) as [A' B'] end.
  destruct (gurobi _); try contradiction; eauto. destruct al; [|eauto]. destruct (feas_relax _); try contradiction; eauto.
Qed.
Ltac solved := match goal with |- context[solve_set_covering gurobi feas_relax ?a ?b ?c ?e ?k] => let l := fresh in let fe := fresh in let E := fresh in
  destruct (covering_answers a b c e k) as (l & fe & E); rewrite E; clear E end.
Section Loop.
Variables (eps : Z) (N : nat) (D : matrix) (d : demands) (C L : limit) (minimize_K : bool) (K : option Z) (relaxe : bool) (required min_iter : option nat) (disc : discarding) (all_limit : nat)
  (restricted reduced extended : list petal).
Lemma phase3_done st r fe s seen : exists ph, phase3 gurobi feas_relax K restricted reduced extended st r fe s seen = Some ph /\ ph_int ph = false.
Proof. unfold phase3. destruct (_ || _)%bool; [solved|]; eexists; split; reflexivity. Qed.
Lemma phase2_done st r fe seen : exists ph, phase2 gurobi feas_relax K restricted reduced extended st r fe seen = Some ph /\ ph_int ph = false.
Proof.
  unfold phase2. match goal with |- context[if ?c then _ else _] => destruct c end; [|apply phase3_done].
  solved. apply phase3_done.
Qed.
Lemma phase1_done st : exists ph, phase1 gurobi feas_relax K restricted reduced extended st = Some ph /\ ph_int ph = false.
Proof.
  assert (H : phase1 gurobi feas_relax K restricted reduced extended st = phase2 gurobi feas_relax K restricted reduced extended st [] false (ps_seen st) \/
    exists l fe' seen', phase1 gurobi feas_relax K restricted reduced extended st = phase2 gurobi feas_relax K restricted reduced extended st l fe' seen').
  { unfold phase1. destruct (ps_set st); auto. destruct restricted; auto. right. cbv zeta. solved. eauto. }
  destruct H as [->|(l & fe & seen & ->)]; apply phase2_done.
Qed.
Lemma iter_returns st out : petal_iter eps gurobi feas_relax N D d C L minimize_K K relaxe required min_iter disc all_limit restricted reduced extended st = inr out ->
  exists b, out = PtReturn b.
Proof.
  unfold petal_iter. destruct (phase1_done st) as (ph & E & Ei). rewrite E, Ei.
  cbv zeta. repeat match goal with |- (match ?x with _ => _ end) = _ -> _ => destruct x end; intros H; first [discriminate H | injection H as <-; eexists; reflexivity].
Qed.
Lemma loop_returns fuel : forall st out cnt, petal_loop eps gurobi feas_relax N D d C L minimize_K K relaxe required min_iter disc all_limit restricted reduced extended fuel st = Some (out, cnt) ->
  exists b, out = PtReturn b.
Proof.
  induction fuel as [|fuel IH]; cbn [petal_loop]; intros st out cnt H; [discriminate|].
  destruct (petal_iter _ _ _ _ _ _ _ _ _ _ _ _ _ _ _ _ _ _ _) as [st'|o] eqn:E; [now apply IH in H|]. injection H as -> _. now apply iter_returns in E.
Qed.
End Loop.

Lemma ptl_call_ends quicksum f argsort points v eps N D d C L : Spec_all.problem N D d C L eps -> triangle D -> solver N D f ->
  length points = N -> planar points -> sorts argsort -> honest quicksum N gurobi ->
  exists rs, serves_all N D d C L eps rs /\ ends_with (ptl_call f argsort points gurobi feas_relax v eps N D d C L false false) (Returns (Some (encode rs))).
Proof.
  intros HP HT Hf Hl Hpl Hs Hh. pose proof HP as [].
  destruct (read_points argsort Hs points) as (rho & order & E & Hperm & _); [intros ->; cbn in Hl; lia|exact Hpl|].
  assert (Eo : exists a b, get_sweep_from_cartesian_coordinates argsort points = Some (a, b, order)).
  { unfold read_coordinates in E. destruct points as [|p0 ps]; [discriminate|]. assert (H0 : length p0 = 2%nat) by (unfold planar in Hpl; now inversion Hpl).
    rewrite H0 in E. cbn [Nat.eqb] in E. destruct (get_sweep_from_cartesian_coordinates argsort (p0 :: ps)) as [[[a b] o]|]; [|discriminate]. injection E as _ <-. eauto. }
  destruct Eo as (a & b & Eo). rewrite Hl in Hperm.
  destruct (init_ends eps gurobi feas_relax quicksum N D d C L pb_eps pb_sym HT pb_depot pb_demand pb_demand0 f order Hf pb_alone Hperm Hh pb_size None false true None None (Some (3, 4)) true Auto v eq_refl eq_refl) as (fuel0 & [out cnt] & Ho).
  assert (Hret : exists s, out = PtReturn s).
  { specialize (Ho fuel0 (le_n _)). unfold petal_init in Ho. destruct (generate_petals _ _ _ _ _ _ _ _ _ _ _) as [g|]; [|discriminate]. now apply loop_returns in Ho. }
  destruct Hret as (s & ->).
  destruct (init_result eps gurobi feas_relax quicksum N D d C L pb_eps pb_sym HT pb_depot pb_demand pb_demand0 f order Hf pb_alone Hperm Hh pb_size None false true None None (Some (3, 4)) true Auto v fuel0 s cnt
    (fun p => proj2 (HA1 p)) (fun p => proj2 (HA2 p)) eq_refl (Ho fuel0 (le_n _))) as (rs & R1 & R2 & _).
  exists rs. split; [exact R2|]. exists fuel0. intros fuel Hfu. unfold ptl_call. rewrite Eo. cbn [negb]. rewrite (Ho fuel Hfu). cbn. now rewrite R1.
Qed.
End Ptl.

Lemma named_gurobi names a : In a (get_algorithms true names) ->
  (exists h, In h heuristics /\ a = short_name h) \/ a = str "wh" \/ a = str "mbsa" \/ a = str "gap" \/ a = str "ptl".
Proof.
  unfold get_algorithms. rewrite in_flat_map. intros (n & _ & H). unfold algos_named in H. destruct (alias (lower n)) as [t|]; [|easy].
  apply in_flat_map in H. destruct H as ([[abbr classical] gurobi] & Hq & H).
  assert (E : a = str abbr).
  { destruct (text_eqb _ _ || _ || _)%bool; [|easy]. destruct gurobi; cbn in H; destruct H as [<-|[]]; reflexivity. }
  subst a. clear H. unfold algo_table in Hq. cbn [In] in Hq.
  repeat (destruct Hq as [Hq|Hq]; [injection Hq as <- _ _; try (right; left; reflexivity); try (right; right; left; reflexivity); try (right; right; right; left; reflexivity); try (right; right; right; right; reflexivity); left|]); [.. | easy].
  all: match goal with |- exists h, _ /\ str ?x = _ => first [exists HPs; split; [cbn; tauto|reflexivity] | exists HPs2o; split; [cbn; tauto|reflexivity] | exists HGpl; split; [cbn; tauto|reflexivity]
    | exists HSs; split; [cbn; tauto|reflexivity] | exists HGps; split; [cbn; tauto|reflexivity] | exists HIms; split; [cbn; tauto|reflexivity] | exists HSi; split; [cbn; tauto|reflexivity]
    | exists HMj; split; [cbn; tauto|reflexivity] | exists HPi; split; [cbn; tauto|reflexivity] | exists HCmt; split; [cbn; tauto|reflexivity] | exists HSn; split; [cbn; tauto|reflexivity]
    | exists HPn; split; [cbn; tauto|reflexivity] | exists HTy; split; [cbn; tauto|reflexivity] | exists HSwp; split; [cbn; tauto|reflexivity] | exists HGm; split; [cbn; tauto|reflexivity]
    | exists HRfcs; split; [cbn; tauto|reflexivity] | exists HLr3o; split; [cbn; tauto|reflexivity]] end.
Qed.
