(** * Mole-Jameson insertion: all criteria, the choice of the best, interrupts *)
From Verif Require Import Spec Spec_ls Spec_inter Spec_driver Spec_savings Spec_cins PyBase M_util M_routedata M_intra M_inter M_driver M_psavings M_cins Spec_cins2 M_mj P_base P_util P_savfam P_psavings P_cins2 P_cins3 P_cins4 P_rfcs3 P_mj P_mj2.
From Coq Require Import ZifyBool ZifyNat Lia.

Lemma configurations_ok c ln mn m : In (ln, mn, m) (configurations c) -> 0 <= ln /\ 0 <= mn.
Proof. destruct c; cbn; intuition; match goal with H : (_, _, _) = (_, _, _) |- _ => injection H as <- <- <- end; lia. Qed.
Lemma configurations_ne c : configurations c <> [].
Proof. destruct c; discriminate. Qed.

Lemma not_beaten_trans mk D a b c : not_beaten mk D a b -> not_beaten mk D b c -> not_beaten mk D a c.
Proof. unfold not_beaten, beats. destruct mk; lia. Qed.
Lemma not_beaten_refl mk D a : not_beaten mk D a a.
Proof. unfold not_beaten, beats. destruct mk; lia. Qed.

(** ** The choice *)
Lemma mj_better_spec D mk b s : Forall customers_only b -> Forall customers_only s ->
  exists r, mj_better D mk (Some (Some (encode b))) (Some (encode s)) = Some (Some (encode r)) /\ (r = b \/ r = s) /\ not_beaten mk D r b /\ not_beaten mk D r s.
Proof.
  intros Hb Hs. cbn [mj_better]. rewrite (P_savfam.count_encode b Hb), (P_savfam.count_encode s Hs), !objf_path, !path_cost_encode. cbn [Nat.sub]. rewrite !Nat.sub_0_r.
  pose proof (is_better_spec mk (routes_cost D s) (length s) (routes_cost D b) (length b)) as X.
  destruct (is_better_sol _ _ _ _ _).
  - exists s. split; [reflexivity|]. split; [now right|]. split; [|apply not_beaten_refl]. apply proj1 in X. specialize (X eq_refl). unfold not_beaten, beats in *. destruct mk; lia.
  - exists b. split; [reflexivity|]. split; [now left|]. split; [apply not_beaten_refl|]. unfold not_beaten. intro Y. apply X in Y. discriminate.
Qed.
Lemma mj_choose_finished D mk : forall ss b, Forall customers_only b -> Forall (Forall customers_only) ss ->
  exists r, (forall evs, mj_choose D mk (Some (Some (encode b))) (map Finished (map encode ss) ++ evs) = mj_choose D mk (Some (Some (encode r))) evs) /\ In r (b :: ss) /\ forall s, In s (b :: ss) -> not_beaten mk D r s.
Proof.
  induction ss as [|s ss IH]; intros b Hb HF; cbn [map app].
  - exists b. split; [reflexivity|]. split; [now left|]. intros s [<-|[]]. apply not_beaten_refl.
  - inversion HF as [|? ? Hs HF']; subst. cbn [mj_choose]. destruct (mj_better_spec D mk b s Hb Hs) as (q & -> & Hq & Q1 & Q2).
    destruct (IH q) as (r & E & Hr & Hall); [destruct Hq; now subst|exact HF'|]. exists r. split; [exact E|]. split.
    + destruct Hr as [<-|Hr]; [destruct Hq as [-> | ->]; [now left|right; now left]|right; now right].
    + intros x [<-|[<-|Hx]]; [eapply not_beaten_trans; [apply Hall; now left|exact Q1]|eapply not_beaten_trans; [apply Hall; now left|exact Q2]|apply Hall; now right].
Qed.
Lemma mj_choose_none D mk ss : ss <> [] -> Forall (Forall customers_only) ss ->
  exists r, (forall evs, mj_choose D mk None (map Finished (map encode ss) ++ evs) = mj_choose D mk (Some (Some (encode r))) evs) /\ In r ss /\ forall s, In s ss -> not_beaten mk D r s.
Proof.
  intros Hne HF. destruct ss as [|s ss]; [contradiction|]. inversion HF; subst. cbn [map app mj_choose mj_better]. now apply mj_choose_finished.
Qed.

(** Interrupts without a solution are swallowed. *)
Lemma mj_swallows D mk : forall evs best, (forall s, ~ In (WithSolution s) evs) -> exists r, mj_choose D mk best evs = Returns r.
Proof.
  induction evs as [|e evs IH]; intros best H; [eexists; reflexivity|]. assert (H' : forall s, ~ In (WithSolution s) evs) by (intros s X; apply (H s); now right).
  destruct e as [s|s|s]; cbn [mj_choose]; [now apply IH| |now apply IH]. exfalso. apply (H s). now left.
Qed.

Section Run.
Variable eps : Z.
Variable N : nat.
Variable D : matrix.
Variable d : demands.
Variables C L : limit.
Variable mk : bool.
Hypothesis He : 0 <= eps.
Hypothesis HM : metric D.
Hypothesis Hd : forall n, 0 <= d n.
Hypothesis Hd0 : d 0%nat = 0.
Hypothesis HN : (2 <= N)%nat.
Hypothesis Ha : served_alone N D d C L eps eps.

Lemma insertion_phase : exists fuel0, forall fuel, (fuel0 <= fuel)%nat -> forall ident ln mn m, 0 <= ln -> 0 <= mn ->
  exists rs pts, mj_insertion eps N D d C L ident fuel (ln, mn, m) = Some (Solution (encode rs), pts) /\ serves N D d C L eps eps rs /\
    forall order p s, (forall l, Permutation (order l) l) -> In (p, s) pts -> p <> RouteCompleted -> p <> SeedTaken ->
      exists rs', handler_sol order s = encode rs' /\ serves N D d C L eps eps rs'.
Proof.
  destruct HM as (M1 & M2 & M3). destruct (two_opt_callback eps eps N D d C L false He M2) as [k0 H0]. exists (max k0 N). intros fuel Hf ident ln mn m Hl Hm. unfold mj_insertion.
  rewrite seed_stack_list. assert (Sg : singles (seed_list N D (param_criteria 4 ln mn D) m)) by (apply singles_metric; auto; lia).
  destruct (init_spec eps eps N D d C L (param_criteria 4 ln mn D) (try_insert_2opt eps eps fuel D L false) (ident (ln, mn, m)) (seed_list N D (param_criteria 4 ln mn D) m)
              (H0 fuel ltac:(lia)) Hd0 (seeds_singles N D (param_criteria 4 ln mn D) m) 1 _ fuel eq_refl (le_n 1) ltac:(lia)) as [(rs & pts & E & H1 & H2 & H3 & H4 & _)|[_ H]]; [|specialize (H Sg); lia].
  exists rs, pts. split; [exact E|]. split; [repeat split; auto|].
  intros order p s Ho Hin P1 P2. assert (G : good_point p = true) by (destruct p; auto; congruence).
  destruct (handler_ok _ _ _ _ _ _ _ _ order s (H4 p s Hin G) Ho) as (rs' & A1 & A2 & A3 & A4). exists rs'. split; [exact A1|]. repeat split; auto.
Qed.

Lemma covers_distinct rs : covers N rs -> distinct_customers rs.
Proof.
  intros H. split; [eapply Permutation_NoDup; [symmetry; exact H|apply seq_NoDup]|]. unfold customers_only. apply Forall_forall. intros x Hx. apply (Permutation_in _ H) in Hx. apply in_seq in Hx. lia.
Qed.
Lemma covers_words rs : covers N rs -> Forall (fun r => r <> []) rs -> In (encode rs) (words N (2 * N)).
Proof.
  intros H1 H2. apply words_in.
  - unfold encode. cbn [length]. assert (X : (length (flat_map (fun r => r ++ [0%nat]) rs) = length (concat rs) + length rs)%nat).
    { clear. induction rs as [|r rs IH]; [reflexivity|]. cbn. rewrite !app_length, IH. cbn. lia. }
    rewrite X. assert (Y := nonempty_length rs H2). rewrite (Permutation_length H1), seq_length in *. lia.
  - intros x [<-|Hx]; [lia|]. apply in_flat_map in Hx as (r & Hr & Hx). apply in_app_or in Hx as [Hx|[<-|[]]]; [|lia].
    assert (Z1 : In x (concat rs)) by (apply in_concat; now exists r). apply (Permutation_in _ H1), in_seq in Z1. lia.
Qed.

Definition decode (w : list nat) : list (list nat) := map (fun r => removelast (tl r)) (sol2routes w).
Lemma decode_encode rs : Forall customers_only rs -> Forall (fun r => r <> []) rs -> decode (encode rs) = rs.
Proof.
  intros H1 H2. unfold decode. rewrite sol2routes_encode by exact H1. rewrite (filter_id rs H2), map_map. rewrite <- (map_id rs) at 2. apply map_ext. intros r. unfold wrap. cbn [tl app]. apply removelast_last.
Qed.
Lemma startable_dec rs : {distinct_customers rs /\ concat rs <> []} + {~ (distinct_customers rs /\ concat rs <> [])}.
Proof.
  destruct (ListDec.NoDup_dec Nat.eq_dec (concat rs)) as [H1|H1]; [|right; intros [[X _] _]; contradiction].
  destruct (Forall_dec (fun n => n <> 0%nat) (fun n => match Nat.eq_dec n 0 with left e => right (fun h => h e) | right h => left h end) (concat rs)) as [H2|H2]; [|right; intros [[_ X] _]; contradiction].
  destruct (concat rs) as [|x t] eqn:E; [right; intros [_ X]; contradiction|left]. split; [|discriminate]. unfold distinct_customers. rewrite E. split; assumption.
Qed.

Lemma refine_phase : exists fuel0, forall fuel, (fuel0 <= fuel)%nat -> forall rs, serves N D d C L eps eps rs ->
  exists rs', refine_solution eps D d C L mk fuel fuel (encode rs) = Some (Refined (encode rs')) /\ serves N D d C L eps eps rs' /\
    not_beaten mk D rs' rs /\ (length rs' <= length rs)%nat /\ forall op, In op [4; 0]%nat -> cannot_improve eps D d C L op rs'.
Proof.
  destruct HM as (M1 & M2 & M3).
  destruct (uniform (fun fuel w => forall rs, w = encode rs -> serves N D d C L eps eps rs ->
     exists rs', refine_solution eps D d C L mk fuel fuel w = Some (Refined (encode rs')) /\ serves N D d C L eps eps rs' /\
       not_beaten mk D rs' rs /\ (length rs' <= length rs)%nat /\ forall op, In op [4; 0]%nat -> cannot_improve eps D d C L op rs') (words N (2 * N))) as [k0 H0].
  { intros w _. assert (Hst : forall rs, w = encode rs -> serves N D d C L eps eps rs -> decode w = rs /\ distinct_customers rs /\ concat rs <> []).
    { intros rs -> (S1 & S2 & _). split; [apply decode_encode; [eapply covers_customers, S1|exact S2]|]. split; [now apply covers_distinct|].
      intro X. unfold covers in S1. rewrite X in S1. apply Permutation_nil in S1. destruct N as [|[|n]]; [lia|lia|discriminate]. }
    destruct (startable_dec (decode w)) as [[Q1 Q2]|Hno].
    - destruct (refine_spec eps D d C L He M2 M3 (M1 0%nat) Hd Hd0 mk _ (decode w) (le_n _) Q1 Q2) as (rs' & f0 & E & R1 & R2 & R3 & R4 & R5 & R6).
      exists f0. intros k Hk rs Eq Hrs. destruct (Hst rs Eq Hrs) as (Hdec & _). rewrite Hdec in *. rewrite Eq. destruct Hrs as (S1 & S2 & S3).
      exists rs'. split; [now apply E|]. rewrite (filter_id rs S2) in R4, R5. split; [split; [unfold covers; now rewrite R2|split; [exact R1|auto]]|]. split; [|split; [exact R4|exact R6]].
      unfold not_beaten, beats. destruct mk; [|specialize (R5 (or_introl eq_refl)); lia]. intros [X|[X Y]]; [lia|]. specialize (R5 (or_intror (eq_sym X))). lia.
    - exists 0%nat. intros k _ rs Eq Hrs. exfalso. destruct (Hst rs Eq Hrs) as (<- & X). contradiction. }
  exists k0. intros fuel Hf rs Hrs. destruct Hrs as (S1 & S2 & S3). apply (H0 fuel Hf (encode rs)); [now apply covers_words|reflexivity|repeat split; assumption].
Qed.

(** One criterion *)
Lemma one_run : exists fuel0, forall fuel, (fuel0 <= fuel)%nat -> forall ident ln mn m, 0 <= ln -> 0 <= mn ->
  exists rs0 pts rs, mj_insertion eps N D d C L ident fuel (ln, mn, m) = Some (Solution (encode rs0), pts) /\ serves N D d C L eps eps rs0 /\
    mj_run eps N D d C L mk ident fuel (ln, mn, m) = Some (OneSol (encode rs)) /\ serves N D d C L eps eps rs /\
    not_beaten mk D rs rs0 /\ (length rs <= length rs0)%nat /\ (forall op, In op [4; 0]%nat -> cannot_improve eps D d C L op rs).
Proof.
  destruct insertion_phase as [k1 H1]. destruct refine_phase as [k2 H2]. exists (max k1 k2). intros fuel Hf ident ln mn m Hl Hm.
  destruct (H1 fuel ltac:(lia) ident ln mn m Hl Hm) as (rs0 & pts & E & S0 & _). destruct (H2 fuel ltac:(lia) rs0 S0) as (rs & E2 & S2 & R1 & R2 & R3).
  exists rs0, pts, rs. split; [exact E|]. split; [exact S0|]. split; [|tauto]. unfold mj_run. rewrite E, E2. do 2 f_equal.
  destruct S2 as (X1 & X2 & _). rewrite without_empty by now apply covers_distinct. now rewrite filter_id.
Qed.

Definition criterion_done (ident : Z * Z * init_method -> nat -> Z) (fuel : nat) (cfg : Z * Z * init_method) (rs0 rs : list (list nat)) : Prop :=
  (exists pts, mj_insertion eps N D d C L ident fuel cfg = Some (Solution (encode rs0), pts)) /\ mj_run eps N D d C L mk ident fuel cfg = Some (OneSol (encode rs)) /\
  serves N D d C L eps eps rs0 /\ serves N D d C L eps eps rs /\ not_beaten mk D rs rs0 /\ (forall op, In op [4; 0]%nat -> cannot_improve eps D d C L op rs).
Lemma all_runs : exists fuel0, forall fuel, (fuel0 <= fuel)%nat -> forall ident cfgs, (forall ln mn m, In (ln, mn, m) cfgs -> 0 <= ln /\ 0 <= mn) ->
  exists ss, mj_runs eps N D d C L mk ident fuel cfgs = Some (Some (map encode ss)) /\ (forall rs, In rs ss -> exists cfg rs0, In cfg cfgs /\ criterion_done ident fuel cfg rs0 rs) /\
    (forall cfg, In cfg cfgs -> exists rs0 rs, In rs ss /\ criterion_done ident fuel cfg rs0 rs) /\ length ss = length cfgs.
Proof.
  destruct one_run as [k0 H0]. exists k0. intros fuel Hf ident. induction cfgs as [|[[ln mn] m] cfgs IH]; intros Hc.
  - exists []. split; [reflexivity|]. split; [intros rs []|]. split; [intros cfg []|reflexivity].
  - destruct IH as (ss & E & A1 & A2 & A3); [intros; apply (Hc ln0 mn0 m0); now right|]. destruct (Hc ln mn m ltac:(now left)) as [Hl Hm].
    destruct (H0 fuel Hf ident ln mn m Hl Hm) as (rs0 & pts & rs & B1 & B2 & B3 & B4 & B5 & B6 & B7).
    assert (Hdone : criterion_done ident fuel (ln, mn, m) rs0 rs) by (split; [now exists pts|tauto]).
    exists (rs :: ss). cbn [mj_runs map]. rewrite B3, E. split; [reflexivity|]. split; [|split; [|cbn; lia]].
    + intros x [<-|Hx]; [exists (ln, mn, m), rs0; split; [now left|exact Hdone]|]. destruct (A1 x Hx) as (cfg & r0 & I & J). exists cfg, r0. split; [now right|exact J].
    + intros cfg [<-|Hx]; [exists rs0, rs; split; [now left|exact Hdone]|]. destruct (A2 cfg Hx) as (r0 & r & I & J). exists r0, r. split; [now right|exact J].
Qed.

Lemma serves_customers rs : serves N D d C L eps eps rs -> Forall customers_only rs.
Proof. intros (H & _). eapply covers_customers, H. Qed.

Lemma mj_result : exists fuel0, forall fuel, (fuel0 <= fuel)%nat -> forall ident c,
  exists rs, mole_jameson_insertion_init eps N D d C L mk ident c fuel = Some (Some (Returns (Some (encode rs)))) /\
    serves N D d C L eps eps rs /\ (forall op, In op [4; 0]%nat -> cannot_improve eps D d C L op rs) /\
    (forall cfg, In cfg (configurations c) -> exists rs0 pts rs',
       mj_insertion eps N D d C L ident fuel cfg = Some (Solution (encode rs0), pts) /\ serves N D d C L eps eps rs0 /\ not_beaten mk D rs rs0 /\
       mj_run eps N D d C L mk ident fuel cfg = Some (OneSol (encode rs')) /\ serves N D d C L eps eps rs' /\ not_beaten mk D rs rs').
Proof.
  destruct all_runs as [k0 H0]. exists k0. intros fuel Hf ident c. destruct (H0 fuel Hf ident (configurations c)) as (ss & E & A1 & A2 & A3); [intros ln mn m; apply configurations_ok|].
  unfold mole_jameson_insertion_init. rewrite E.
  assert (Hne : ss <> []) by (intro X; apply (configurations_ne c); rewrite X in A3; now destruct (configurations c)).
  destruct (mj_choose_none D mk ss Hne) as (r & E2 & Hin & Hall).
  { apply Forall_forall. intros x Hx. destruct (A1 x Hx) as (cfg & r0 & _ & J). apply serves_customers, J. }
  specialize (E2 []). rewrite app_nil_r in E2. rewrite E2. exists r. split; [reflexivity|]. destruct (A1 r Hin) as (cfg & r0 & _ & J). split; [apply J|]. split; [apply J|].
  intros cfg' Hc. destruct (A2 cfg' Hc) as (rs0 & rs' & I & ((pts & K1) & K2 & K3 & K4 & K5 & _)). exists rs0, pts, rs'. split; [exact K1|]. split; [exact K3|].
  split; [eapply not_beaten_trans; [apply Hall, I|exact K5]|]. split; [exact K2|]. split; [exact K4|apply Hall, I].
Qed.

Lemma mj_interrupted : exists fuel0, forall fuel, (fuel0 <= fuel)%nat -> forall ident order c done cfg rest o pts p s,
  (forall l, Permutation (order l) l) -> configurations c = done ++ cfg :: rest ->
  mj_insertion eps N D d C L ident fuel cfg = Some (o, pts) -> In (p, s) pts -> p <> RouteCompleted -> p <> SeedTaken ->
  exists ss, mj_runs eps N D d C L mk ident fuel done = Some (Some (map encode ss)) /\
  exists rs, (forall later, mj_choose D mk None (map Finished (map encode ss) ++ WithSolution (handler_sol order s) :: later) = Interrupts (Some (encode rs))) /\
    serves N D d C L eps eps rs /\ (forall rs', In rs' ss -> not_beaten mk D rs rs') /\ (exists rs', handler_sol order s = encode rs' /\ not_beaten mk D rs rs').
Proof.
  destruct all_runs as [k0 H0]. destruct insertion_phase as [k1 H1]. exists (max k0 k1). intros fuel Hf ident order c done cfg rest o pts p s Ho Ec Ei Hin P1 P2.
  assert (Hcfg : forall ln mn m, In (ln, mn, m) (done ++ cfg :: rest) -> 0 <= ln /\ 0 <= mn) by (intros ln mn m X; rewrite <- Ec in X; eapply configurations_ok, X).
  destruct (H0 fuel ltac:(lia) ident done) as (ss & E & A1 & A2 & A3); [intros ln mn m X; apply (Hcfg ln mn m), in_or_app; now left|]. exists ss. split; [exact E|].
  destruct cfg as [[ln mn] m]. destruct (Hcfg ln mn m ltac:(apply in_or_app; right; now left)) as [Hl Hm].
  destruct (H1 fuel ltac:(lia) ident ln mn m Hl Hm) as (rs0 & pts' & Ei' & _ & Hh). rewrite Ei in Ei'. injection Ei' as -> ->.
  destruct (Hh order p s Ho Hin P1 P2) as (rs1 & E1 & S1). rewrite E1.
  assert (HF : Forall (Forall customers_only) ss) by (apply Forall_forall; intros x Hx; destruct (A1 x Hx) as (cfg & r0 & _ & J); apply serves_customers, J).
  destruct ss as [|s0 ss].
  - exists rs1. split; [reflexivity|]. split; [exact S1|]. split; [intros x []|]. exists rs1. split; [reflexivity|apply not_beaten_refl].
  - destruct (mj_choose_none D mk (s0 :: ss) ltac:(discriminate) HF) as (r & X1 & X2 & X3).
    assert (Sr : serves N D d C L eps eps r) by (destruct (A1 r X2) as (cfg & r0 & _ & J); apply J).
    destruct (mj_better_spec D mk r rs1) as (q & Eq & Hq & Q1 & Q2); [now apply serves_customers|now apply serves_customers|].
    exists q. split; [intros later; rewrite X1; cbn [mj_choose]; now rewrite Eq|]. split; [destruct Hq; now subst|]. split; [|exists rs1; split; [reflexivity|exact Q2]].
    intros x Hx. eapply not_beaten_trans; [exact Q1|apply X3, Hx].
Qed.
End Run.

Lemma mj_nobody eps D d C L mk ident c fuel : mole_jameson_insertion_init eps 1 D d C L mk ident c fuel = Some None.
Proof.
  assert (H : forall cfg, mj_run eps 1 D d C L mk ident fuel cfg = Some OneRaised).
  { intros [[ln mn] m]. unfold mj_run, mj_insertion, insertion_init. cbn [initial_routes]. destruct m; reflexivity. }
  unfold mole_jameson_insertion_init. destruct (configurations c) as [|cfg t] eqn:E; [now apply configurations_ne in E|]. cbn [mj_runs]. now rewrite H.
Qed.
