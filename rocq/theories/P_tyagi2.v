(** * Tyagi's grouping follows its rule *)
From Verif Require Import Spec Spec_inter Spec_nn Spec_tyagi PyBase M_util M_psavings M_nn M_tyagi P_base P_driver P_nn P_nn2 P_nn3 P_tyagi.
Require Import ZifyBool ZifyNat Lia.

Section Follow.
Variable N : nat.
Variable D : matrix.
Variable d : demands.
Variables C L : limit.
Variables ceps seps : Z.
Variable forbidden : list nat.
Variables ends_only try_all : bool.
Hypothesis HN : (1 <= N)%nat.

Notation rule := (ty_rule N D d C L ceps seps forbidden ends_only try_all).
Notation steps := (ty_steps N D d C L ceps seps forbidden ends_only try_all).
Notation free := (ty_free N forbidden).
Notation near := (ty_near N D forbidden).
Notation ext := (extended_by D ends_only).
Notation feas := (feasible D d C L ceps seps).
Notation cb := (route_end_interchange ceps seps N D d C L try_all).
Notation iter := (nn_iter_cb cb ceps seps N D d C L NNfarthest ends_only).
Notation loop := (nn_loop_cb cb ceps seps N D d C L NNfarthest ends_only).

Definition ty_valid (st : ty_state) : Prop :=
  NoDup (concat (ty_done st) ++ ty_cur st) /\
  (forall j, In j (concat (ty_done st) ++ ty_cur st) -> (1 <= j < N)%nat /\ ~ In j forbidden) /\
  Forall (fun r => r <> []) (ty_done st) /\
  (forall r, In r (ty_done st) \/ r = ty_cur st -> (2 <= length r)%nat -> feas r) /\
  (ty_cur st <> [] -> In (ty_prev st) (ty_cur st)).

Lemma free_not st j : free st j <-> (1 <= j < N)%nat /\ ~ In j forbidden /\ ~ In j (concat (ty_done st) ++ ty_cur st).
Proof. unfold ty_free. rewrite in_app_iff. tauto. Qed.

Lemma ext_p r j : Permutation (ext r j) (j :: r).
Proof. unfold extended_by. destruct (_ && _); [reflexivity|]. symmetry. apply Permutation_cons_append. Qed.

Lemma rule_valid st st' : rule st st' -> ty_valid st -> ty_valid st'.
Proof.
  intros Hr (V1 & V2 & V3 & V4 & V5). destruct Hr as [j E Hj|j Hc Hj Hf|j y Hc Hj Hf Hy Hno|j x y r' Hc Hj Hf Hy Hsw]; unfold ty_valid; cbn [ty_done ty_cur ty_prev].
  - destruct Hj as [Hj _]. apply free_not in Hj as (Hj1 & Hj2 & Hj3). rewrite E, app_nil_r in *.
    assert (HP : Permutation (concat (ty_done st) ++ [j]) (j :: concat (ty_done st))) by (symmetry; apply Permutation_cons_append).
    split; [eapply Permutation_NoDup; [symmetry; exact HP|]; now constructor|]. split; [|split; [exact V3|split; [|intros _; now left]]].
    + intros i Hi. apply in_app_iff in Hi as [Hi|[<-|[]]]; auto.
    + intros r [Hr| ->] Hl; [apply V4; auto|cbn in Hl; lia].
  - destruct Hj as [Hj _]. apply free_not in Hj as (Hj1 & Hj2 & Hj3).
    assert (HP : Permutation (concat (ty_done st) ++ ext (ty_cur st) j) (j :: concat (ty_done st) ++ ty_cur st)).
    { rewrite (ext_p (ty_cur st) j). symmetry. apply Permutation_middle. }
    split; [eapply Permutation_NoDup; [symmetry; exact HP|]; now constructor|]. split; [|split; [exact V3|split]].
    + intros i Hi. eapply Permutation_in in Hi; [|exact HP]. destruct Hi as [<-|Hi]; auto.
    + intros r [Hr| ->] Hl; [apply V4; auto|exact Hf].
    + intros _. eapply Permutation_in; [symmetry; apply ext_p|]. now left.
  - rewrite concat_app, app_nil_r. cbn [concat]. rewrite app_nil_r. split; [exact V1|]. split; [exact V2|]. split; [|split; [|easy]].
    + apply Forall_app. split; [exact V3|]. constructor; [exact Hc|constructor].
    + intros r [Hr| ->] Hl; [|cbn in Hl; lia]. apply in_app_iff in Hr as [Hr|[<-|[]]]; auto.
  - destruct Hy as [Hy _]. apply free_not in Hy as (Hy1 & Hy2 & Hy3).
    destruct Hsw as ((a & b & Ec & -> & _) & Hfe & _). rewrite concat_app, app_nil_r. cbn [concat]. rewrite app_nil_r. rewrite Ec in *.
    assert (HP : Permutation (concat (ty_done st) ++ a ++ y :: b) (y :: concat (ty_done st) ++ a ++ b)).
    { rewrite !app_assoc. symmetry. apply Permutation_middle. }
    assert (HP0 : Permutation (concat (ty_done st) ++ a ++ x :: b) (x :: concat (ty_done st) ++ a ++ b)).
    { rewrite !app_assoc. symmetry. apply Permutation_middle. }
    assert (Hin : forall i, In i (concat (ty_done st) ++ a ++ b) -> In i (concat (ty_done st) ++ a ++ x :: b)).
    { intros i Hi. eapply Permutation_in; [symmetry; exact HP0|]. now right. }
    split; [|split; [|split; [|split; [|easy]]]].
    + eapply Permutation_NoDup; [symmetry; exact HP|]. eapply Permutation_NoDup in V1; [|exact HP0]. inversion V1; subst. constructor; [|assumption]. intros H. apply Hy3. auto.
    + intros i Hi. eapply Permutation_in in Hi; [|exact HP]. destruct Hi as [<-|Hi]; auto.
    + apply Forall_app. split; [exact V3|]. constructor; [now destruct a|constructor].
    + intros r [Hr| ->] Hl; [|cbn in Hl; lia]. apply in_app_iff in Hr as [Hr|[<-|[]]]; auto.
Qed.

Definition slot1 (st : ty_state) (sl : slot) : Prop := sl_nodes sl = ty_cur st /\ sl_prev sl = ty_prev st /\ slot_ok D d C L sl.
Definition queues (st : ty_state) (q : nat -> pq) : Prop :=
  let srt := ty_back st = false in
  (forall i, free st i -> qi N D srt (fun j => free st j \/ In j (ty_cur st)) i (q i)) /\
  (forall i, In i (ty_cur st) -> qi N D srt (free st) i (q i)) /\
  (ty_cur st = [] -> qi N D srt (free st) 0 (q 0%nat)) /\
  (ty_cur st <> [] -> exists sd, In sd (ty_cur st) /\ qi N D srt (fun j => (free st j \/ In j (ty_cur st)) /\ j <> sd) 0 (q 0%nat) /\
     exists p e, pq_left (q 0%nat) = S p /\ nth_error (pq_items (q 0%nat)) p = Some e /\ snd e = D 0%nat sd).
Definition ty_rep (s : nstate) (st : ty_state) : Prop :=
  ns_sol s = encode (ty_done st) /\ ns_k s = 0%nat /\ (exists sl, ns_slots s = [sl] /\ slot1 st sl) /\
  (forall i, (i < N)%nat -> ns_served s i = false <-> free st i) /\ queues st (ns_q s).

Definition ty_snap (st : ty_state) (p : nsnap) : Prop := fst (snd p) = encode (ty_done st) /\ map sl_nodes (snd (snd p)) = [ty_cur st].
Definition ty_stored (st : ty_state) (p : nsnap) : Prop :=
  fst p = N_stored /\ exists r', ty_cur st <> [] /\ r' <> [] /\ fst (snd p) = encode (ty_done st ++ [r']) /\ map sl_nodes (snd (snd p)) = [ty_cur st] /\
    (forall i, In i r' -> (1 <= i < N)%nat) /\ ((2 <= length r')%nat -> feas r').
Definition ty_point (st st' : ty_state) (p : nsnap) : Prop := ty_snap st p \/ ty_snap st' p \/ ty_stored st p.

Lemma start_valid : ty_valid ty_start.
Proof. split; [constructor|]. split; [easy|]. split; [constructor|]. split; [|easy]. intros r [[]| ->] H. cbn in H. lia. Qed.

Lemma start_rep : self_first N D -> ty_rep (nn_init N D 1 forbidden) ty_start.
Proof.
  intros Hs. unfold ty_rep, nn_init, ty_start. cbn [ns_q ns_served ns_sol ns_slots ns_k ty_done repeat].
  split; [reflexivity|]. split; [reflexivity|]. split; [eexists; split; [reflexivity|]; split; [reflexivity|]; split; [reflexivity|]; intros H; now destruct H|].
  split.
  - intros i Hi. unfold ty_free. cbn. rewrite orb_false_iff, Nat.eqb_neq. split.
    + intros [H1 H2]. split; [lia|]. split; [|tauto]. intros Hin. assert (existsb (Nat.eqb i) forbidden = true); [|congruence].
      apply existsb_exists. exists i. split; [exact Hin|apply Nat.eqb_refl].
    + intros (H1 & H2 & _). split; [lia|]. destruct (existsb (Nat.eqb i) forbidden) eqn:E; [|reflexivity].
      apply existsb_exists in E as (x & Hx & E). apply Nat.eqb_eq in E. subst x. contradiction.
  - split; [|split; [|split]]; cbn [ty_cur ty_back].
    + intros i Hi. apply qi_init; [exact Hs|apply Hi|]. intros j [Hj|[]]. apply Hj.
    + easy.
    + intros _. apply qi_init; [exact Hs|lia|]. intros j Hj. apply Hj.
    + easy.
Qed.

Lemma snap_rep s st pt : ty_rep s st -> ty_snap st (pt, (ns_sol s, ns_slots s)).
Proof. intros (R1 & _ & (sl & E & Hsl & _) & _). split; [exact R1|]. cbn [snd]. rewrite E. cbn. now rewrite Hsl. Qed.

Lemma len_view q : pq_wf q -> (length (pq_view q) < S (pq_len q))%nat.
Proof. intros H. rewrite view_length by exact H. lia. Qed.

(** The improvement of a finished route. *)
Lemma improve_spec st r rd rl served q : ty_valid st -> ty_cur st = r -> r <> [] ->
  (forall i, (i < N)%nat -> served i = false <-> free st i) -> queues st q ->
  (limit_set C -> rd = demand d r) -> (limit_set L -> rl = route_cost D r) -> (exists j, free st j) ->
  exists r' served' q' y, cb r rd rl served q = Some (r', served', q') /\ near st (last r 0%nat) y /\
    let st' b := mkty (ty_done st ++ [r']) [] (ty_prev st) b in
    ((r' = r /\ (forall x r2, ~ interchange D d C L ceps seps try_all r x y r2) /\
      (forall i, (i < N)%nat -> served' i = false <-> free (st' (ty_back st)) i) /\ queues (st' (ty_back st)) q') \/
     (exists x, interchange D d C L ceps seps try_all r x y r' /\
      (forall i, (i < N)%nat -> served' i = false <-> free (st' true) i) /\ queues (st' true) q')).
Proof.
  intros V Hr Hne HS HQ Hd Hl (j0 & Hj0). unfold route_end_interchange.
  assert (Hlast : In (last r 0%nat) r) by (destruct (exists_last Hne) as (a & z & ->); rewrite last_last; apply in_or_app; right; now left).
  destruct HQ as (Q1 & Q2 & Q3 & Q4). destruct V as (V1 & V2 & V3 & V4 & V5). rewrite Hr in *.
  assert (HqL := Q2 _ Hlast). assert (Hcf : forall i, In i r -> ~ free st i) by (intros i Hi (_ & _ & _ & H); rewrite Hr in H; contradiction).
  assert (Hnu := next_unserved_qi N D (free st) served HS _ _ _ _ HqL (len_view _ (proj1 HqL))).
  destruct (next_unserved served _ _) as [[y ql]|].
  2:{ exfalso. specialize (Hnu j0 Hj0). subst j0. apply (Hcf _ Hlast Hj0). }
  destruct Hnu as (Hy & Hmin & Hql & _).
  set (q1 := M_nn.upd q (last r 0%nat) ql).
  assert (Hq1f : forall i, ~ In i r -> q1 i = q i).
  { intros i Hi. unfold q1, M_nn.upd. destruct (Nat.eqb_spec i (last r 0%nat)) as [->|_]; [contradiction|reflexivity]. }
  assert (Hq1c : forall i, In i r -> qi N D (ty_back st = false) (free st) i (q1 i)).
  { intros i Hi. unfold q1, M_nn.upd. destruct (Nat.eqb_spec i (last r 0%nat)) as [->|_]; [exact Hql|now apply Q2]. }
  assert (H0r : ~ In 0%nat r) by (intros H; destruct (V2 0%nat ltac:(apply in_or_app; now right)); lia).
  assert (Hnear : near st (last r 0%nat) y).
  { split; [exact Hy|]. intros Hb x Hx. apply Hmin; [exact Hb|exact Hx|]. intros ->. exact (Hcf _ Hlast Hx). }
  destruct (Q4 Hne) as (sd & Hsd & Hq0 & Hpop).
  set (cands := if try_all then seq 0 (length r) else [(length r - 1)%nat; 0%nat]).
  assert (Hlen : (1 <= length r)%nat) by (destruct r; [easy|cbn; lia]).
  assert (Hcand : forall a x b, r = a ++ x :: b -> (try_all = true \/ a = [] \/ b = []) <-> In (length a) cands).
  { intros a x b E. assert (El : length r = (length a + S (length b))%nat) by (rewrite E, app_length; reflexivity).
    unfold cands. destruct try_all; [split; [intros _; apply in_seq; lia|auto]|]. cbn [In]. split.
    - intros [H|[->| ->]]; [discriminate|cbn; auto|]. left. cbn in El. lia.
    - intros [H|[H|[]]]; right; [right; destruct b; [reflexivity|cbn in El; lia]|left; destruct a; [reflexivity|discriminate]]. }
  assert (Hcl : forall p, In p cands -> (p < length r)%nat).
  { intros p. unfold cands. destruct try_all; [intros H; apply in_seq in H; lia|]. cbn. lia. }
  assert (Hf := last_found (fun p => interchange_ok ceps seps D d C L r rd rl y p) cands None).
  destruct (fold_left _ cands None) as [p|].
  - destruct Hf as [[Hp Hok]|H]; [|discriminate]. assert (Hpl := Hcl p Hp). destruct (at_position r p Hpl) as (a & b & E & Hla & Ea & Eb & _).
    set (x := nth p r 0%nat) in *. rewrite <- Hla in Hok, Hp. apply (interchange_ok_spec D d C L ceps seps r a b x y rd rl E Hd Hl) in Hok. destruct Hok as [Hfe Hbet].
    rewrite <- Ea, <- Eb.
    assert (Hxr : In x r) by (rewrite E; apply in_or_app; right; now left).
    destruct (V2 x ltac:(apply in_or_app; now right)) as [Hx1 Hx2].
    assert (Hxy : x <> y) by (intros ->; exact (Hcf _ Hxr Hy)).
    assert (Hxf : ~ In x (concat (ty_done st) ++ a ++ b)).
    { assert (HP : Permutation (concat (ty_done st) ++ r) (x :: concat (ty_done st) ++ a ++ b)) by (rewrite E, !app_assoc; symmetry; apply Permutation_middle).
      eapply Permutation_NoDup in V1; [|exact HP]. now inversion V1. }
    eexists _, _, _, y. split; [reflexivity|]. split; [exact Hnear|]. right. exists x.
    set (st' := mkty (ty_done st ++ [a ++ y :: b]) [] (ty_prev st) true).
    assert (Hfr : forall i, free st' i <-> (free st i /\ i <> y) \/ i = x).
    { intros i. rewrite !free_not. unfold st'. cbn [ty_done ty_cur]. rewrite Hr, app_nil_r, concat_app. cbn [concat]. rewrite app_nil_r, E, !in_app_iff in *. cbn [In] in *.
      split.
      - intros (H1 & H2 & H3). destruct (Nat.eq_dec i x) as [->|Hne']; [now right|]. left. split; [|intros ->; tauto]. split; [exact H1|]. split; [exact H2|]. intuition congruence.
      - intros [((H1 & H2 & H3) & H4)| ->]; [split; [exact H1|]; split; [exact H2|]; intuition congruence|]. split; [exact Hx1|]. split; [exact Hx2|]. intuition congruence. }
    split; [split; [exists a, b; split; [exact E|]; split; [reflexivity|]; apply (Hcand _ _ _ E); exact Hp|split; [exact Hfe|exact Hbet]]|]. split.
    + intros i Hi. rewrite Hfr. unfold M_nn.upd. destruct (Nat.eqb_spec i x) as [->|Hix]; [split; [now right|reflexivity]|].
      destruct (Nat.eqb_spec i y) as [->|Hiy]; [split; [discriminate|intros [[_ H]|H]; contradiction]|]. rewrite HS by exact Hi. tauto.
    + unfold queues. cbn [ty_cur ty_back st']. split; [|split; [|split]].
      * intros i Hi. cbv beta. assert (Hi' := Hi). apply Hfr in Hi'. destruct (Nat.eq_dec i x) as [->|Hix].
        { rewrite (Nat.eqb_refl x), !andb_false_r. eapply qi_weaken; [| |apply Hq1c; exact Hxr]; [discriminate|]. intros j Hjx [Hj|[]].
          apply Hfr in Hj as [[Hj _]| ->]; [exact Hj|contradiction]. }
        destruct Hi' as [[Hif Hiy]|Hi']; [|contradiction]. assert (HiN : (i < N)%nat) by apply Hif.
        assert (Hir : ~ In i r) by (intros H; exact (Hcf _ H Hif)). rewrite (Hq1f i Hir).
        replace ((i <? N)%nat && (Nat.eqb i 0 || negb (M_nn.upd served y true i)) && negb (Nat.eqb i x)) with true.
        2:{ unfold M_nn.upd. rewrite (proj2 (HS i HiN) Hif). destruct (Nat.eqb_spec i y); [contradiction|]. destruct (Nat.eqb_spec i x); [contradiction|]. destruct (Nat.ltb_spec i N); [|lia]. now rewrite orb_true_r. }
        eapply qi_weaken; [| |eapply push_back_qi; [apply Q1; exact Hif|lia|left; now right]]; [discriminate|].
        cbn. intros j _ [Hj|[]]. apply Hfr in Hj. tauto.
      * easy.
      * intros _. cbv beta. rewrite (Nat.eqb_refl 0). cbn [orb]. replace (negb (Nat.eqb 0 x)) with true by (destruct x; [lia|reflexivity]). replace ((0 <? N)%nat) with true by lia. cbn [andb].
        rewrite (Hq1f _ H0r). eapply qi_weaken; [| |eapply push_back_qi; [exact Hq0|lia|]]; [discriminate| |].
        -- cbn. intros j _ Hj. apply Hfr in Hj as [[Hj _]|Hj]; [|now right]. left. split; [now left|]. intros ->. exact (Hcf _ Hsd Hj).
        -- destruct (Nat.eq_dec x sd) as [Exs|Hxs]; [right|left; split; [now right|exact Hxs]]. destruct Hpop as (p0 & e & P1 & P2 & P3). exists p0, e. rewrite Exs. repeat split; auto. lia.
      * easy.
  - destruct Hf as [_ Hf]. eexists _, _, _, y. split; [reflexivity|]. split; [exact Hnear|]. left. split; [reflexivity|].
    set (st' := mkty (ty_done st ++ [r]) [] (ty_prev st) (ty_back st)).
    assert (Hfr : forall i, free st' i <-> free st i).
    { intros i. rewrite !free_not. unfold st'. cbn [ty_done ty_cur]. rewrite Hr, app_nil_r, concat_app. cbn [concat]. now rewrite app_nil_r. }
    split; [|split].
    + intros x r2 ((a & b & E & -> & Hpos) & Hfe & Hbet). assert (Hin := proj1 (Hcand _ _ _ E) Hpos). specialize (Hf _ Hin).
      assert (H := proj2 (interchange_ok_spec D d C L ceps seps r a b x y rd rl E Hd Hl) (conj Hfe Hbet)). congruence.
    + intros i Hi. rewrite Hfr. now apply HS.
    + unfold queues. cbn [ty_cur ty_back st']. split; [|split; [easy|split; [|easy]]].
      * intros i Hi. apply Hfr in Hi. rewrite Hq1f by (intros H; exact (Hcf _ H Hi)). eapply qi_weaken; [| |apply Q1; exact Hi]; [auto|]. intros j _ [Hj|[]]. apply Hfr in Hj. now left.
      * intros _. rewrite (Hq1f _ H0r). eapply qi_weaken; [| |exact Hq0]; [auto|]. intros j _ Hj. apply Hfr in Hj. split; [now left|]. intros ->. exact (Hcf _ Hsd Hj).
Qed.

Lemma route_nodes_last (r : list nat) : r <> [] -> In (last r 0%nat) r.
Proof. intros H. destruct (exists_last H) as (a & z & ->). rewrite last_last. apply in_or_app. right. now left. Qed.

(** One iteration. *)
Lemma iter_ty s st : ty_valid st -> ty_rep s st ->
  match iter s with
  | Go s' pts => exists st', rule st st' /\ ty_rep s' st' /\ Forall (ty_point st st') pts
  | Exc EIndex => forall j, ~ free st j
  | Exc _ => False
  end.
Proof.
  intros V R. assert (R' := R). assert (V' := V). destruct V' as (V1 & V2 & V3 & V4 & V5). destruct R' as (R1 & R2 & (sl & Esl & Hnodes & Hprev & Hslot) & R4 & Q1 & Q2 & Q3 & Q4).
  unfold nn_iter_cb. rewrite R2, Esl. cbn [nth_error].
  assert (F0 : ~ free st 0%nat) by (intros [H _]; lia).
  assert (Hcf : forall i, In i (ty_cur st) -> ~ free st i) by (intros i Hi (_ & _ & _ & H); contradiction).
  destruct (sl_nodes sl) as [|first rest] eqn:Enodes.
  - (* a new route *)
    assert (Ec : ty_cur st = []) by congruence.
    assert (Hq0 := Q3 Ec). cbn [get_seed_node].
    assert (Hp := seed_popleft_qi N D (free st) (ns_served s) R4 _ _ _ Hq0 (len_view _ (proj1 Hq0)) F0).
    destruct (seed_pop _ _ _ _) as [[sd q0]|]; [|exact Hp]. destruct Hp as (Hsd & Hmin & Hq0' & Hpop).
    set (st' := mkty (ty_done st) [sd] sd (ty_back st)).
    assert (Hfr : forall i, free st' i <-> free st i /\ i <> sd).
    { intros i. unfold ty_free, st'. cbn [ty_done ty_cur]. rewrite Ec. cbn [In]. intuition congruence. }
    assert (Hrule : rule st st').
    { apply ty_begin; [exact Ec|]. split; [exact Hsd|]. exact Hmin. }
    assert (Hsd0 : sd <> 0%nat) by (intros ->; contradiction).
    exists st'. split; [exact Hrule|]. split; [|constructor; [|constructor; [|constructor]]].
    + unfold ty_rep. cbn [ns_sol ns_k ns_slots ns_served ns_q]. split; [exact R1|]. split; [reflexivity|]. split; [|split].
      * eexists. split; [reflexivity|]. split; [reflexivity|]. split; [reflexivity|]. intros _. cbn [sl_nodes sl_demand sl_cost]. split; intros ->; [cbn; lia|reflexivity].
      * intros i Hi. rewrite (P_nn2.upd_false N), Hfr, R4 by exact Hi. reflexivity.
      * unfold queues. cbn [ty_cur ty_back st']. split; [|split; [|split; [easy|]]].
        -- intros i Hi. apply Hfr in Hi as [Hi _]. unfold M_nn.upd. destruct (Nat.eqb_spec i 0) as [->|_]; [contradiction|].
           eapply qi_weaken; [| |apply Q1; exact Hi]; [auto|]. intros j _ [Hj|[<-|[]]]; [apply Hfr in Hj as [Hj _]; now left|now left].
        -- intros i [<-|[]]. unfold M_nn.upd. destruct (Nat.eqb_spec sd 0) as [->|_]; [contradiction|].
           eapply qi_weaken; [| |apply Q1; exact Hsd]; [auto|]. intros j _ Hj. apply Hfr in Hj as [Hj _]. now left.
        -- intros _. exists sd. split; [now left|]. unfold M_nn.upd. rewrite Nat.eqb_refl. split; [|exact Hpop].
           eapply qi_weaken; [| |exact Hq0']; [auto|]. intros j _ [[Hj|[<-|[]]] Hne]; [apply Hfr in Hj; tauto|contradiction].
    + left. split; [exact R1|]. cbn. now rewrite Ec.
    + right. left. split; [exact R1|]. reflexivity.
  - (* extending or finishing *)
    assert (Hne : ty_cur st <> []) by (rewrite <- Hnodes; discriminate).
    assert (Hpc := V5 Hne). rewrite <- Hprev in Hpc.
    assert (Hqp0 := Q2 _ Hpc).
    assert (Hnu := next_unserved_qi N D (free st) (ns_served s) R4 _ _ _ _ Hqp0 (len_view _ (proj1 Hqp0))).
    destruct (next_unserved _ _ _) as [[nn qp]|].
    2:{ intros j Hj. specialize (Hnu j Hj). subst j. exact (Hcf _ Hpc Hj). }
    destruct Hnu as (Hnf & Hmin & Hqp & tl & Hview).
    assert (Hnear : near st (ty_prev st) nn).
    { split; [exact Hnf|]. intros Hb x Hx. rewrite <- Hprev. apply Hmin; [exact Hb|exact Hx|]. intros ->. exact (Hcf _ Hpc Hx). }
    assert (Hsn : sl_nodes sl <> []) by (rewrite Enodes; discriminate).
    destruct (limits_test N D d C L ceps seps ends_only HN sl nn Hslot Hsn) as (Hext & Htest & Hslot').
    destruct (Hslot Hsn) as [Hdem Hcost].
    rewrite Enodes in Hext, Htest, Hslot', Hdem, Hcost. cbn [hd] in Hext, Htest, Hslot'. rewrite Hnodes in Hext, Htest, Hslot', Hdem, Hcost. rewrite Hnodes.
    assert (Efirst : first = hd 0%nat (ty_cur st)) by (rewrite <- Hnodes; reflexivity).
    set (front := negb ends_only && _) in *.
    set (de := D 0%nat first + _ + _) in *. set (ds := D 0%nat nn + _ + _) in *.
    destruct (exceeds C ceps (sl_demand sl + d nn) || exceeds L seps (sl_cost sl + (if front then ds else de))) eqn:Etest.
    + (* finished *)
      assert (Hnfe : ~ feas (ext (ty_cur st) nn)) by (intros H; apply Htest in H; congruence).
      assert (HQ : queues st (M_nn.upd (ns_q s) (sl_prev sl) qp)).
      { unfold queues. split; [|split; [|split]].
        - intros i Hi. unfold M_nn.upd. destruct (Nat.eqb_spec i (sl_prev sl)) as [->|_]; [exfalso; exact (Hcf _ Hpc Hi)|now apply Q1].
        - intros i Hi. unfold M_nn.upd. destruct (Nat.eqb_spec i (sl_prev sl)) as [->|_]; [exact Hqp|now apply Q2].
        - intros H. contradiction.
        - intros _. unfold M_nn.upd. destruct (Nat.eqb_spec 0 (sl_prev sl)) as [E0|_]; [|now apply Q4]. exfalso. rewrite <- E0 in Hpc. destruct (V2 0%nat ltac:(apply in_or_app; now right)). lia. }
      destruct (improve_spec st (ty_cur st) (sl_demand sl) (D 0%nat first + sl_cost sl + D (last (ty_cur st) 0%nat) 0%nat) (ns_served s) _ V eq_refl Hne R4 HQ)
        as (r' & served' & q' & y & Ecb & Hy & Hcase).
      { intros H. apply Hdem. now apply is_set_limit. }
      { intros H. rewrite Hcost by (now apply is_set_limit). rewrite route_cost_ends by exact Hne. now rewrite Efirst. }
      { exists nn. exact Hnf. }
      rewrite Ecb. cbn zeta in Hcase.
      assert (Hst : exists b, rule st (mkty (ty_done st ++ [r']) [] (ty_prev st) b) /\
                (forall i, (i < N)%nat -> served' i = false <-> free (mkty (ty_done st ++ [r']) [] (ty_prev st) b) i) /\ queues (mkty (ty_done st ++ [r']) [] (ty_prev st) b) q').
      { destruct Hcase as [(-> & Hno & H1 & H2)|(x & Hsw & H1 & H2)].
        - exists (ty_back st). split; [|auto]. eapply ty_finish; eauto.
        - exists true. split; [|auto]. eapply ty_swap; eauto. }
      destruct Hst as (b & Hrule & Hs' & Hq'). exists (mkty (ty_done st ++ [r']) [] (ty_prev st) b). split; [exact Hrule|].
      assert (V' := rule_valid _ _ Hrule V). destruct V' as (W1 & W2 & W3 & W4 & _). cbn [ty_done ty_cur] in W1, W2, W3, W4.
      assert (Esol : ns_sol s ++ r' ++ [0%nat] = encode (ty_done st ++ [r'])) by (rewrite encode_snoc, R1; reflexivity).
      split; [|constructor; [|constructor; [|constructor]]].
      * unfold ty_rep. cbn [ns_sol ns_k ns_slots ns_served ns_q ty_done ty_cur ty_prev]. split; [exact Esol|]. split; [reflexivity|]. split; [|split; [exact Hs'|exact Hq']].
        eexists. split; [reflexivity|]. split; [reflexivity|]. split; [exact Hprev|]. intros H. now destruct H.
      * right. right. split; [reflexivity|]. exists r'. split; [exact Hne|]. rewrite Forall_app in W3. destruct W3 as [_ W3]. apply Forall_inv in W3. split; [exact W3|].
        cbn [fst snd]. split; [exact Esol|]. split; [cbn; now rewrite Enodes, Hnodes|]. split.
        -- intros i Hi. apply W2. rewrite app_nil_r, concat_app. apply in_or_app. right. cbn. now rewrite app_nil_r.
        -- apply W4. left. apply in_or_app. right. now left.
      * right. left. split; [exact Esol|]. reflexivity.
    + (* extended *)
      assert (Hfe : feas (ext (ty_cur st) nn)) by (now apply Htest).
      set (st' := mkty (ty_done st) (ext (ty_cur st) nn) nn (ty_back st)).
      assert (Hrule : rule st st') by (apply ty_extend; assumption).
      assert (Hpop := popleft_view qp (proj1 Hqp)). destruct (pq_popleft qp) as [[x qp']|] eqn:Epop; [|rewrite Hview in Hpop; discriminate].
      destruct Hpop as (_ & Hv & _). rewrite Hview in Hv. injection Hv as Ex _.
      assert (Hin : forall i, In i (ext (ty_cur st) nn) <-> i = nn \/ In i (ty_cur st)).
      { intros i. split; intros H; [eapply Permutation_in in H; [|apply ext_p]; destruct H; auto|]. eapply Permutation_in; [symmetry; apply ext_p|]. destruct H; [left; congruence|now right]. }
      assert (Hfr : forall i, free st' i <-> free st i /\ i <> nn).
      { intros i. unfold ty_free, st'. cbn [ty_done ty_cur]. rewrite Hin. tauto. }
      exists st'. split; [exact Hrule|]. rewrite <- Hext. split; [|constructor; [|constructor]].
      * unfold ty_rep. cbn [ns_sol ns_k ns_slots ns_served ns_q]. split; [exact R1|]. split; [reflexivity|]. split; [|split].
        -- eexists. split; [reflexivity|]. split; [reflexivity|]. split; [reflexivity|]. exact Hslot'.
        -- intros i Hi. rewrite (P_nn2.upd_false N), Hfr, R4 by exact Hi. reflexivity.
        -- assert (Hnp : nn <> sl_prev sl) by (intros ->; exact (Hcf _ Hpc Hnf)).
           unfold queues. cbn [ty_cur ty_back st']. split; [|split; [|split]].
           ++ intros i Hi. apply Hfr in Hi as [Hi _]. unfold M_nn.upd. destruct (Nat.eqb_spec i (sl_prev sl)) as [->|_]; [exfalso; exact (Hcf _ Hpc Hi)|].
              eapply qi_weaken; [| |apply Q1; exact Hi]; [auto|]. intros j _ [Hj|Hj]; [apply Hfr in Hj as [Hj _]; now left|]. apply Hin in Hj as [->|Hj]; [now left|now right].
           ++ intros i Hi. unfold M_nn.upd. destruct (Nat.eqb_spec i (sl_prev sl)) as [->|Hip].
              ** eapply qi_pop; [|exact Epop|]; [eapply qi_weaken; [| |exact Hqp]; [auto|]; intros j _ Hj; now apply Hfr in Hj|]. left. rewrite <- Ex. cbn [fst]. intros H. apply Hfr in H. tauto.
              ** apply Hin in Hi as [->|Hi]; [eapply qi_weaken; [| |apply Q1; exact Hnf]|eapply qi_weaken; [| |apply Q2; exact Hi]]; auto; intros j _ Hj; apply Hfr in Hj; tauto.
           ++ intros H. exfalso. assert (Hi : In nn (ext (ty_cur st) nn)) by (apply Hin; now left). rewrite H in Hi. destruct Hi.
           ++ intros _. destruct (Q4 Hne) as (sd & Hsd & Hq0 & Hpop). exists sd. split; [apply Hin; now right|].
              unfold M_nn.upd. destruct (Nat.eqb_spec 0 (sl_prev sl)) as [E0|_]; [exfalso; rewrite <- E0 in Hpc; destruct (V2 0%nat ltac:(apply in_or_app; now right)); lia|].
              split; [|exact Hpop]. eapply qi_weaken; [| |exact Hq0]; [auto|]. intros j _ [[Hj|Hj] Hjs]; (split; [|exact Hjs]); [apply Hfr in Hj; tauto|]. apply Hin in Hj as [->|Hj]; [now left|now right].
      * right. left. split; [exact R1|]. reflexivity.
Qed.

(** ** The loop *)
Lemma ty_trans a b c : steps a b -> steps b c -> steps a c.
Proof. intros H1 H2. induction H2; [exact H1|]. eapply ty_more; eauto. Qed.
Lemma ty_one a b : rule a b -> steps a b.
Proof. intros H. eapply ty_more; [apply ty_none|exact H]. Qed.

Lemma ty_count st : ty_valid st -> (length (concat (ty_done st)) + length (ty_cur st) <= N - 1)%nat.
Proof.
  intros (V1 & V2 & _). rewrite <- app_length, <- (seq_length (N - 1) 1). apply NoDup_incl_length; [exact V1|]. intros x Hx. apply in_seq. apply V2 in Hx. lia.
Qed.

Definition ty_mu (st : ty_state) : nat := (N - length (concat (ty_done st))) * (N + 1) + (N - length (ty_cur st)).
Lemma ty_mu_dec st st' : rule st st' -> ty_valid st -> (ty_mu st' < ty_mu st)%nat.
Proof.
  intros Hr V. assert (H1 := ty_count _ V). assert (H2 := ty_count _ (rule_valid _ _ Hr V)). unfold ty_mu.
  assert (Hfin : forall r', length r' = length (ty_cur st) -> ty_cur st <> [] ->
     ((N - length (concat (ty_done st ++ [r']))) * (N + 1) + (N - length (@nil nat)) < (N - length (concat (ty_done st))) * (N + 1) + (N - length (ty_cur st)))%nat).
  { intros r' E Hc. rewrite concat_app. cbn [concat]. rewrite app_nil_r, app_length, E. cbn [length]. destruct (ty_cur st) as [|z t]; [easy|]. cbn [length] in *. nia. }
  destruct Hr as [j E Hj|j Hc Hj Hf|j y Hc Hj Hf Hy Hno|j x y r' Hc Hj Hf Hy Hsw]; cbn [ty_done ty_cur] in *.
  - rewrite E in *. cbn [length] in *. lia.
  - assert (El := Permutation_length (ext_p (ty_cur st) j)). cbn [length] in El. rewrite El in *. lia.
  - now apply Hfin.
  - apply Hfin; [|exact Hc]. destruct Hsw as ((a & b & -> & -> & _) & _). rewrite !app_length. reflexivity.
Qed.

Definition ty_passed (st : ty_state) (p : nsnap) : Prop := exists st1, steps st st1 /\ ty_valid st1 /\ (ty_snap st1 p \/ ty_stored st1 p).

Lemma loop_ty n : forall s st, ty_valid st -> ty_rep s st -> (ty_mu st < n)%nat ->
  exists sf pts stf, loop n s = Some (sf, EIndex, pts) /\ steps st stf /\ ty_valid stf /\ ty_rep sf stf /\ (forall j, ~ free stf j) /\ Forall (ty_passed st) pts.
Proof.
  induction n as [|n IH]; intros s st V R Hm; [lia|]. cbn [nn_loop_cb].
  assert (Hi := iter_ty s st V R). destruct (iter s) as [s' pts|e] eqn:Ei.
  - destruct Hi as (st' & Hr & R' & Hp). assert (V' := rule_valid _ _ Hr V).
    assert (Hmu := ty_mu_dec _ _ Hr V). destruct (IH s' st' V' R' ltac:(lia)) as (sf & pts' & stf & El & Hs & Vf & Rf & Ef & Hp').
    rewrite El. exists sf, (pts ++ (N_start, (ns_sol s', ns_slots s')) :: pts'), stf. split; [reflexivity|]. split; [eapply ty_trans; [apply ty_one; exact Hr|exact Hs]|].
    split; [exact Vf|]. split; [exact Rf|]. split; [exact Ef|]. apply Forall_app. split; [|constructor].
    + eapply Forall_impl; [|exact Hp]. intros p [H|[H|H]]; [exists st|exists st'|exists st]; (split; [apply ty_none || (apply ty_one; exact Hr)|]); auto.
    + exists st'. split; [apply ty_one; exact Hr|]. split; [exact V'|]. left. now apply snap_rep.
    + eapply Forall_impl; [|exact Hp']. intros p (st1 & H1 & H2). exists st1. split; [|exact H2]. eapply ty_trans; [apply ty_one; exact Hr|exact H1].
  - destruct e; [|destruct Hi|destruct Hi]. exists s, [], st. split; [reflexivity|]. split; [apply ty_none|]. auto.
Qed.

Lemma loop_cb_more n : forall s x, loop n s = Some x -> forall k, (n <= k)%nat -> loop k s = Some x.
Proof.
  induction n as [|n IH]; intros s x H k Hk; [discriminate|]. destruct k as [|k]; [lia|]. cbn [nn_loop_cb] in *.
  destruct (iter s) as [s' pts|e]; [|exact H]. destruct (loop n s') as [[[sf e] pts']|] eqn:E; [|discriminate].
  rewrite (IH _ _ E k ltac:(lia)). exact H.
Qed.

(** ** The result of one grouping *)
Notation run := (nearest_neighbor_cb cb ceps seps N D d C L ends_only forbidden).

Lemma ty_routes_nonempty st : ty_valid st -> Forall (fun r => r <> []) (ty_routes st).
Proof. intros (_ & _ & V3 & _). unfold ty_routes. apply Forall_app. split; [exact V3|]. destruct (ty_cur st); cbn; repeat constructor. discriminate. Qed.
Lemma ty_routes_concat st : concat (ty_routes st) = concat (ty_done st) ++ ty_cur st.
Proof. unfold ty_routes. rewrite concat_app. f_equal. destruct (ty_cur st); cbn; rewrite ?app_nil_r; reflexivity. Qed.
Lemma ty_routes_feas st : ty_valid st -> forall r, In r (ty_routes st) -> (2 <= length r)%nat -> feas r.
Proof.
  intros (_ & _ & _ & V4 & _) r Hr Hl. apply V4; [|exact Hl]. unfold ty_routes in Hr. apply in_app_iff in Hr as [Hr|Hr]; [now left|]. right.
  destruct (ty_cur st); cbn in Hr; [easy|]. destruct Hr as [<-|[]]. reflexivity.
Qed.

Lemma ty_grouping_run : self_first N D ->
  exists st pts, steps ty_start st /\ ty_valid st /\ (forall j, ~ free st j) /\
    Forall (ty_passed ty_start) pts /\
    forall fuel, (S (ty_mu ty_start) <= fuel)%nat -> run fuel = Some (match ty_routes st with [] => None | rs => Some (encode rs) end, pts).
Proof.
  intros Hself. destruct (loop_ty (S (ty_mu ty_start)) _ _ start_valid (start_rep Hself) ltac:(lia)) as (sf & pts & stf & El & Hs & Vf & Rf & Hno & Hp).
  eexists stf, _. split; [exact Hs|]. split; [exact Vf|]. split; [exact Hno|]. split.
  2:{ intros fuel Hf. unfold nearest_neighbor_cb. rewrite (loop_cb_more _ _ _ El _ Hf).
      destruct Rf as (R1 & _ & (sl & Esl & Hn & _) & _). rewrite R1, Esl, close_encode. cbn [map]. rewrite Hn. fold (ty_routes stf).
      rewrite encode_length1 by (now apply ty_routes_nonempty). destruct (ty_routes stf); reflexivity. }
  constructor; [|exact Hp]. exists ty_start. split; [apply ty_none|]. split; [apply start_valid|]. left. split; reflexivity.
Qed.

Lemma ty_covers st : ty_valid st -> (forall j, ~ free st j) -> Permutation (concat (ty_routes st)) (filter (allowed forbidden) (seq 1 (N - 1))).
Proof.
  intros (V1 & V2 & _) Hno. rewrite ty_routes_concat. apply NoDup_Permutation; [exact V1|apply NoDup_filter, seq_NoDup|].
  intros x. rewrite filter_In, in_seq, allowed_spec. split.
  - intros Hx. apply V2 in Hx. split; [lia|tauto].
  - intros [Hx Hf]. destruct (in_dec Nat.eq_dec x (concat (ty_done st) ++ ty_cur st)) as [H|H]; [exact H|]. exfalso. apply (Hno x). apply free_not. split; [lia|]. auto.
Qed.

(** ** Interrupts *)
Lemma ty_interrupted p : ty_passed ty_start p ->
  (fst p <> N_stored ->
   exists rs, nn_interrupted N p = encode rs /\ covers N rs /\ Forall (fun r => r <> []) rs /\ forall r, In r rs -> (2 <= length r)%nat -> feas r) /\
  exists rs, nn_interrupted N p = encode rs /\ (forall c, (1 <= c < N)%nat <-> In c (concat rs)) /\ Forall (fun r => r <> []) rs /\ forall r, In r rs -> (2 <= length r)%nat -> feas r.
Proof.
  assert (Es : forall U : list nat, concat (map (fun x => [x]) U) = U) by (induction U as [|x U IH]; [reflexivity|cbn; now f_equal]).
  intros (st & _ & V & [(E1 & E2)|(Ep & r' & Hc & Hr' & E1 & E2 & Hin & Hfr)]).
  - assert (Hne := ty_routes_nonempty _ V). destruct (interrupted_gen N HN p (ty_done st) E1 (ty_routes st)) as (U & E & HnU & HU); [now rewrite E2|exact Hne|].
    rewrite ty_routes_concat in HU. assert (Hf := ty_routes_feas _ V). destruct V as (V1 & V2 & _).
    assert (Hcov : covers N (ty_routes st ++ P_ssavings.singles U)).
    { unfold covers. rewrite concat_app, ty_routes_concat. unfold P_ssavings.singles. rewrite Es.
      apply NoDup_Permutation; [apply NoDup_app_intro; [exact V1|exact HnU|]|apply seq_NoDup|].
      - intros x Hx Hu. apply HU in Hu. tauto.
      - intros x. rewrite in_app_iff, HU, in_seq. destruct (in_dec Nat.eq_dec x (concat (ty_done st) ++ ty_cur st)) as [H|H]; [destruct (V2 x H) as [Hx _]; split; [intros _; lia|intros _; now left]|].
        split; [intros [Hx|Hx]; [contradiction|lia]|]. intros Hx. right. split; [lia|exact H]. }
    assert (Hne' : Forall (fun r => r <> []) (ty_routes st ++ P_ssavings.singles U)).
    { apply Forall_app. split; [exact Hne|]. apply Forall_forall. intros r Hr. apply in_map_iff in Hr as (x & <- & _). discriminate. }
    assert (Hf' : forall r, In r (ty_routes st ++ P_ssavings.singles U) -> (2 <= length r)%nat -> feas r).
    { intros r Hr Hl. apply in_app_iff in Hr as [Hr|Hr]; [now apply Hf|]. apply in_map_iff in Hr as (x & <- & _). cbn in Hl. lia. }
    split; [intros _; eauto 10|]. eexists. split; [exact E|]. split; [|auto].
    intros c. unfold covers in Hcov. assert (Hcc : In c (seq 1 (N - 1)) <-> In c (concat (ty_routes st ++ P_ssavings.singles U))) by (split; apply Permutation_in; [now symmetry|exact Hcov]). rewrite <- Hcc, in_seq. lia.
  - split; [contradiction|]. destruct V as (V1 & V2 & V3 & V4 & _).
    assert (Eflt : filter nonempty [ty_cur st] = [ty_cur st]) by (destruct (ty_cur st); [easy|reflexivity]).
    assert (Hne : Forall (fun r => r <> []) ((ty_done st ++ [r']) ++ [ty_cur st])).
    { apply Forall_app. split; [apply Forall_app; split; [exact V3|repeat constructor; exact Hr']|repeat constructor; exact Hc]. }
    destruct (interrupted_gen N HN p (ty_done st ++ [r']) E1 ((ty_done st ++ [r']) ++ [ty_cur st])) as (U & E & HnU & HU); [now rewrite E2, Eflt|exact Hne|].
    eexists. split; [exact E|]. split; [|split].
    + intros c. rewrite concat_app, in_app_iff. unfold P_ssavings.singles. rewrite Es, HU. set (X := (ty_done st ++ [r']) ++ [ty_cur st]) in *.
      assert (HX : In c (concat X) -> (1 <= c < N)%nat).
      { unfold X. rewrite !concat_app, !in_app_iff. cbn [concat]. rewrite !app_nil_r. intros [[H|H]|H]; [apply V2, in_or_app; now left|now apply Hin|apply V2, in_or_app; now right]. }
      destruct (in_dec Nat.eq_dec c (concat X)) as [H|H]; tauto.
    + apply Forall_app. split; [exact Hne|]. apply Forall_forall. intros r Hr. apply in_map_iff in Hr as (x & <- & _). discriminate.
    + intros r Hr Hl. apply in_app_iff in Hr as [Hr|Hr]; [|apply in_map_iff in Hr as (x & <- & _); cbn in Hl; lia].
      apply in_app_iff in Hr as [Hr|[<-|[]]]; [|apply V4; auto]. apply in_app_iff in Hr as [Hr|[<-|[]]]; auto.
Qed.
End Follow.
