(** * Wren and Holliday: what the heuristics keep *)
From Verif Require Import Spec Spec_ls Spec_inter PyBase M_util M_routedata M_intra M_inter M_driver Spec_driver
     P_base P_cvrp P_rd P_scan P_intra P_intra2 P_inter P_inter2 P_inter3 P_driver P_driver2 P_mj2 M_wh.
From Coq Require Import ZifyBool ZifyNat Lia List Permutation.
Import ListNotations.
Local Open Scope Z_scope.

Section Keep.
Variables (eps : Z) (N : nat) (D : matrix) (d : demands) (C L : limit).
Notation exact := (exact_rd D d C).
Notation feas := (feasible D d C L eps eps).
Notation cost := (routes_cost D).

(** A route that may be seen by an interrupt, and a list of routes that may *)
Definition okr (cs r : list nat) : Prop := feas r /\ NoDup r /\ customers_only r /\ incl r cs.
Definition part (cs : list nat) (rds : list routedata) : Prop :=
  exists rs, Forall2 only_route rs rds /\ Forall (okr cs) rs.
Definition ok (cs : list nat) (rs : list (list nat)) (st : wst) : Prop :=
  Forall2 exact rs (ws_routes st) /\ distinct_customers rs /\ Forall feas rs /\ incl (concat rs) cs /\
  Forall (part cs) (ws_log st).

(** What a heuristic does when it reports [b] *)
Definition step (st st' : wst) (b : bool) : Prop :=
  forall cs rs, ok cs rs st -> exists rs', ok cs rs' st' /\ length rs' = length rs /\
    Permutation (concat rs') (concat rs) /\ (b = false -> st' = st /\ rs' = rs) /\ (b = true -> cost rs' < cost rs).
(** ... and when it has not ended *)
Definition running (st st' : wst) : Prop :=
  forall cs rs, ok cs rs st -> exists rs', ok cs rs' st' /\ length rs' = length rs /\ Permutation (concat rs') (concat rs).
Definition stepo (st st' : wst) (o : outcome) : Prop :=
  match o with Ended b => step st st' b | Running => running st st' end.

Lemma step_refl st : step st st false.
Proof. intros cs rs H. exists rs. repeat split; auto; try apply H; discriminate. Qed.
Lemma step_trans a b c x y : step a b x -> step b c y -> step a c (x || y).
Proof.
  intros H1 H2 cs rs H. destruct (H1 cs rs H) as (r1 & O1 & L1 & P1 & F1 & T1).
  destruct (H2 cs r1 O1) as (r2 & O2 & L2 & P2 & F2 & T2). exists r2. split; [exact O2|]. split; [congruence|].
  split; [etransitivity; eassumption|]. destruct x, y; cbn [orb].
  - split; [discriminate|]. intros _. specialize (T1 eq_refl). specialize (T2 eq_refl). lia.
  - split; [discriminate|]. intros _. destruct (F2 eq_refl) as [-> ->]. auto.
  - split; [discriminate|]. intros _. destruct (F1 eq_refl) as [-> ->]. auto.
  - split; [|discriminate]. intros _. destruct (F1 eq_refl) as [-> ->]. auto.
Qed.
Lemma step_running a b x : step a b x -> running a b.
Proof. intros H cs rs O. destruct (H cs rs O) as (r & O1 & L1 & P1 & _). now exists r. Qed.
Lemma running_trans a b c : running a b -> running b c -> running a c.
Proof.
  intros H1 H2 cs rs H. destruct (H1 cs rs H) as (r1 & O1 & L1 & P1). destruct (H2 cs r1 O1) as (r2 & O2 & L2 & P2).
  exists r2. split; [exact O2|]. split; [congruence|]. etransitivity; eassumption.
Qed.
Lemma step_stepo a b c x o : step a b x -> stepo b c o -> stepo a c (match o with Ended y => Ended (x || y) | Running => Running end).
Proof.
  intros H. destruct o as [y|]; cbn; [now apply step_trans|]. intros H2. eapply running_trans; [eapply step_running; exact H|exact H2].
Qed.
Lemma step_weaken a b x y : step a b x -> (x = true -> y = true) -> (x = false -> y = false) -> step a b y.
Proof. intros H H1 H2. destruct x, y; auto; try (specialize (H1 eq_refl); discriminate); specialize (H2 eq_refl); discriminate. Qed.

Lemma ok_length cs rs st : ok cs rs st -> length rs = length (ws_routes st).
Proof. intros (H & _). now apply Forall2_len in H. Qed.

Lemma ok_part cs rs st : ok cs rs st -> part cs (ws_routes st).
Proof.
  intros (HF & HD & HG & HI & _). exists rs. split; [eapply exact_only; exact HF|].
  pose proof (distinct_customers_each _ HD) as HC. destruct HD as [HN _].
  rewrite Forall_forall in *. intros r Hr. split; [auto|]. split; [eapply nodup_concat_each; eassumption|]. split; [auto|].
  intros x Hx. apply HI, in_concat. now exists r.
Qed.
Lemma Forall_set {A} (P : A -> Prop) k x : forall l, P x -> Forall P l -> Forall P (set_nth k x l).
Proof. induction k; intros [|y l] Hx H; cbn; auto; inversion H; subst; constructor; auto. Qed.
Lemma part_set cs i r rd rds : only_route r rd -> okr cs r -> part cs rds -> part cs (set_nth i rd rds).
Proof. intros Hr Hok (rs & HF & HG). exists (set_nth i r rs). split; [now apply set_nth_Forall2|now apply Forall_set]. Qed.

(** Several assignments one after the other *)
Fixpoint assigns (ris : list nat) (rds : list routedata) (st : wst) : wst :=
  match ris, rds with
  | i :: ris', rd :: rds' => assigns ris' rds' (assign i rd st)
  | _, _ => st
  end.
Lemma assigns_log cs : forall ris rds rs st, Forall2 only_route rs rds -> Forall (okr cs) rs ->
  part cs (ws_routes st) -> Forall (part cs) (ws_log st) ->
  part cs (ws_routes (assigns ris rds st)) /\ Forall (part cs) (ws_log (assigns ris rds st)).
Proof.
  induction ris as [|i ris IH]; intros rds rs st HF HG HP HL; [now split|].
  inversion HF as [|r rd rs' rds' H1 H2]; subst; [now split|]. inversion HG; subst. cbn [assigns]. eapply IH; [eassumption|assumption| |].
  - cbn. now apply part_set with (r := r).
  - cbn. now constructor.
Qed.
Lemma assigns_routes : forall ris rds rs rs0 st, Forall2 exact rs rds -> Forall2 exact rs0 (ws_routes st) ->
  Forall2 exact (upd rs0 ris rs) (ws_routes (assigns ris rds st)).
Proof.
  induction ris as [|i ris IH]; intros rds rs rs0 st HF H0; [exact H0|].
  inversion HF as [|r rd rs' rds' H1 H2]; subst; [exact H0|]. unfold upd. cbn [assigns combine fold_left fst snd].
  apply IH; [assumption|]. cbn. now apply set_nth_Forall2.
Qed.

Hypothesis Heps : 0 <= eps.
Hypothesis Hsym : symmetric D.
Hypothesis HT : triangle D.
Hypothesis HD0 : D 0%nat 0%nat = 0.
Hypothesis Hd : forall n, 0 <= d n.
Hypothesis Hd0 : d 0%nat = 0.

Lemma upd_sum_cost rs ris rs' : NoDup ris -> (forall i, In i ris -> (i < length rs)%nat) -> length rs' = length ris ->
  cost (upd rs ris rs') = cost rs - cost (map (nthr rs) ris) + cost rs'.
Proof using Type. intros. unfold routes_cost. now apply (upd_sum (route_cost D)). Qed.

(** Replacing some routes by routes with the same customers *)
Lemma replace_step cs rs st ris rs' rds' : ok cs rs st -> NoDup ris -> (forall i, In i ris -> (i < length rs)%nat) ->
  Forall2 exact rs' rds' -> length rs' = length ris -> Permutation (concat rs') (concat (map (nthr rs) ris)) ->
  Forall feas rs' ->
  ok cs (upd rs ris rs') (assigns ris rds' st) /\ length (upd rs ris rs') = length rs /\
  Permutation (concat (upd rs ris rs')) (concat rs).
Proof using Type.
  intros HO Hnd Hin HF Hlen HP HG. pose proof HO as (H1 & H2 & H3 & H4 & H5).
  pose proof (upd_perm ris rs' rs Hnd Hin Hlen HP) as HP'.
  assert (Hsub : forall x, In x (concat rs') -> In x (concat rs)).
  { intros x Hx. eapply Permutation_in in Hx; [|exact HP]. apply in_concat in Hx as (r & Hr & Hx). apply in_map_iff in Hr as (i & <- & Hi).
    apply in_concat. exists (nthr rs i). split; [apply nth_In; auto|exact Hx]. }
  assert (HD : distinct_customers rs').
  { apply dist_perm with (map (nthr rs) ris); [exact HP|]. now apply dist_select. }
  assert (HR : Forall (okr cs) rs').
  { pose proof (distinct_customers_each _ HD) as HC. destruct HD as [HN _]. rewrite Forall_forall in *. intros r Hr.
    split; [auto|]. split; [eapply nodup_concat_each; eassumption|]. split; [auto|]. intros x Hx. apply H4, Hsub, in_concat. now exists r. }
  destruct (assigns_log cs ris rds' rs' st) as [_ HL]; [eapply exact_only; exact HF|exact HR|eapply ok_part; exact HO|exact H5|].
  split; [|split; [apply upd_length|exact HP']].
  split; [now apply assigns_routes|]. split; [now apply dist_perm with rs|]. split; [now apply upd_good|]. split; [|exact HL].
  intros x Hx. apply H4. eapply Permutation_in; eassumption.
Qed.

(** ... by an operator of the library *)
Lemma op_step op st ris rds' delta : (op <= 6)%nat -> NoDup ris -> length ris = op_count (library eps D d C L op) ->
  (forall i, In i ris -> (i < length (ws_routes st))%nat) ->
  run_op (library eps D d C L op) (map (fun i => route_at i st) ris) true = Some (rds', delta) ->
  step st (assigns ris rds' st) true.
Proof using Heps HT Hd Hsym.
  intros Hop Hnd Hlen Hin Hrun cs rs HO. pose proof HO as (H1 & H2 & H3 & H4 & H5).
  assert (Hin' : forall i, In i ris -> (i < length rs)%nat) by (intros i Hi; rewrite (ok_length _ _ _ HO); auto).
  assert (HF : Forall2 exact (map (nthr rs) ris) (map (fun i => route_at i st) ris)).
  { clear Hnd Hlen Hrun Hin. induction ris as [|i ris IH]; [constructor|]. cbn. constructor; [|apply IH; intros; apply Hin'; now right].
    change (exact (nth i rs []) (nth i (ws_routes st) empty_rd)). apply Forall2_nth_rel; [exact H1|apply Hin'; now left]. }
  assert (HD : distinct_customers (map (nthr rs) ris)) by (now apply dist_select).
  assert (HL : length (map (nthr rs) ris) = op_count (library eps D d C L op)) by (now rewrite map_length).
  destruct (library_moves eps D d C L Heps Hsym HT Hd op Hop true _ _ _ _ HL HD HF Hrun)
    as (rs' & A1 & A2 & A3 & A4 & A5). rewrite map_length in A2.
  assert (HG : Forall feas (map (nthr rs) ris)).
  { rewrite Forall_forall in *. intros r Hr. apply in_map_iff in Hr as (i & <- & Hi). apply H3, nth_In; auto. }
  destruct (replace_step cs rs st ris rs' rds' HO Hnd Hin' A1 A2 A3 (A4 HG)) as (B1 & B2 & B3).
  exists (upd rs ris rs'). split; [exact B1|]. split; [exact B2|]. split; [exact B3|]. split; [discriminate|]. intros _.
  rewrite upd_sum_cost; auto. unfold cheaper in A5. lia.
Qed.

Lemma within_step op f i st : (op = 0 \/ op = 2)%nat -> library eps D d C L op = Op1 (fun r first => f r first) ->
  (i < length (ws_routes st))%nat -> let '(st', b) := move_within (fun r => f r true) i st in step st st' b.
Proof using Heps HT Hd Hsym.
  intros Hop Hl Hi. unfold move_within. destruct (f (rd_route (route_at i st)) true) as [[w delta]|] eqn:E; [|apply step_refl].
  apply (op_step op st [i] [mkrd w (rd_cost (route_at i st) + delta) (rd_demand (route_at i st))] delta).
  - lia.
  - constructor; [easy|constructor].
  - now rewrite Hl.
  - intros j [<-|[]]. exact Hi.
  - rewrite Hl. cbn. now rewrite E.
Qed.

Lemma set_len {A} k (x : A) l : length (set_nth k x l) = length l.
Proof using Type. apply set_nth_length. Qed.
Lemma assign_len i rd st : length (ws_routes (assign i rd st)) = length (ws_routes st).
Proof using Type. apply set_nth_length. Qed.
Lemma within_len f i st : length (ws_routes (fst (move_within f i st))) = length (ws_routes st).
Proof using Type. unfold move_within. destruct (f _) as [[w delta]|]; cbn [fst]; [apply assign_len|reflexivity]. Qed.

(** Loops over indices *)
Lemma over_step {A} (body : A -> wst -> wst * outcome) n : forall (l : list A) st imp,
  (forall i st, In i l -> length (ws_routes st) = n -> stepo st (fst (body i st)) (snd (body i st))) ->
  (forall i st, length (ws_routes (fst (body i st))) = length (ws_routes st)) -> length (ws_routes st) = n ->
  forall st0, step st0 st imp -> stepo st0 (fst (over l body st imp)) (snd (over l body st imp)).
Proof using Type.
  induction l as [|i l IH]; intros st imp Hb Hlen Hn st0 H0; cbn [over fst snd]; [exact H0|].
  pose proof (Hb i st (or_introl eq_refl) Hn) as H1. pose proof (Hlen i st) as H2. destruct (body i st) as [st' [b|]] eqn:E; cbn [fst snd] in *.
  - apply IH; [intros; apply Hb; [now right|assumption]|exact Hlen|congruence|]. eapply step_trans; [exact H0|exact H1].
  - cbn [stepo]. eapply running_trans; [eapply step_running; exact H0|exact H1].
Qed.
Lemma over_len {A} (body : A -> wst -> wst * outcome) : (forall i st, length (ws_routes (fst (body i st))) = length (ws_routes st)) ->
  forall l st imp, length (ws_routes (fst (over l body st imp))) = length (ws_routes st).
Proof using Type.
  intros H. induction l as [|i l IH]; intros st imp; cbn [over]; [reflexivity|]. pose proof (H i st) as H1.
  destruct (body i st) as [st' [b|]]; cbn [fst] in *; [now rewrite IH|exact H1].
Qed.
Lemma in_range n i : In i (range 0 n) -> (i < n)%nat.
Proof using Type. unfold range. rewrite in_seq. clear. lia. Qed.

(** ** inspect *)
Lemma inspect_while_len i : forall fuel st imp, length (ws_routes (fst (inspect_while eps D fuel i st imp))) = length (ws_routes st).
Proof using Type.
  induction fuel as [|fuel IH]; intros st imp; cbn [inspect_while]; [reflexivity|].
  pose proof (within_len (fun r => do_2opt_move eps r D true None) i st) as H. destruct (move_within _ i st) as [st' [|]]; cbn [fst] in *; [now rewrite IH|exact H].
Qed.
Lemma inspect_while_step i : forall fuel st imp st0, (i < length (ws_routes st))%nat -> step st0 st imp ->
  stepo st0 (fst (inspect_while eps D fuel i st imp)) (snd (inspect_while eps D fuel i st imp)).
Proof using Heps HT Hd Hsym.
  induction fuel as [|fuel IH]; intros st imp st0 Hi H0; cbn [inspect_while]; [eapply step_running; exact H0|].
  pose proof (within_step 0 (fun r first => do_2opt_move eps r D first None) i st (or_introl eq_refl) eq_refl Hi) as H1.
  pose proof (within_len (fun r => do_2opt_move eps r D true None) i st) as H2.
  destruct (move_within (fun r => do_2opt_move eps r D true None) i st) as [st' [|]]; cbn [fst snd] in *.
  - apply IH; [now rewrite H2|]. apply step_weaken with (imp || true)%bool; [eapply step_trans; eassumption| |]; destruct imp; auto.
  - cbn [stepo]. replace imp with (imp || false)%bool by (now destruct imp). eapply step_trans; eassumption.
Qed.
Lemma inspect_len fuel st : length (ws_routes (fst (inspect_heuristic eps D fuel st))) = length (ws_routes st).
Proof using Type.
  unfold inspect_heuristic. apply over_len. intros i st'. destruct (rd_is_empty _); [reflexivity|apply inspect_while_len].
Qed.
Lemma inspect_step fuel st : stepo st (fst (inspect_heuristic eps D fuel st)) (snd (inspect_heuristic eps D fuel st)).
Proof using Heps HT Hd Hsym.
  unfold inspect_heuristic. apply over_step with (n := length (ws_routes st)); [| |reflexivity|apply step_refl].
  - intros i st' Hi Hn. apply in_range in Hi. destruct (rd_is_empty _); [apply step_refl|]. apply inspect_while_step; [lia|apply step_refl].
  - intros i st'. destruct (rd_is_empty _); [reflexivity|apply inspect_while_len].
Qed.

(** ** single *)
Lemma single_move_len i j st : length (ws_routes (fst (single_move eps D d C L i j st))) = length (ws_routes st).
Proof using Type.
  unfold single_move. destruct (Nat.eqb i j); [reflexivity|]. destruct (do_1point_move _ _ _ _ _ _ _ _ _) as [[[|a [|b [|? ?]]] ?]|]; try reflexivity.
  cbn [fst]. now rewrite !assign_len.
Qed.
Lemma single_move_step i j st : (i < length (ws_routes st))%nat -> (j < length (ws_routes st))%nat ->
  step st (fst (single_move eps D d C L i j st)) (snd (single_move eps D d C L i j st)).
Proof using Heps HT Hd Hsym.
  intros Hi Hj. unfold single_move. destruct (Nat.eqb i j) eqn:E; [apply step_refl|]. apply Nat.eqb_neq in E.
  destruct (do_1point_move eps (route_at i st) (route_at j st) D d C L true None) as [[[|a [|b [|? ?]]] delta]|] eqn:E1; try apply step_refl.
  cbn [fst snd]. apply (op_step 4 st [i; j] [a; b] delta).
  - lia.
  - constructor; [intros [->|[]]; congruence|constructor; [easy|constructor]].
  - reflexivity.
  - intros k [<-|[<-|[]]]; assumption.
  - exact E1.
Qed.
Lemma single_fold_step i : forall l st b, (i < length (ws_routes st))%nat -> (forall j, In j l -> (j < length (ws_routes st))%nat) ->
  forall st0, step st0 st b ->
  let r := fold_left (fun s j => let '(st, b) := s in let '(st', b') := single_move eps D d C L i j st in (st', (b || b')%bool)) l (st, b) in
  step st0 (fst r) (snd r) /\ length (ws_routes (fst r)) = length (ws_routes st).
Proof using Heps HT Hd Hsym.
  induction l as [|j l IH]; intros st b Hi Hl st0 H0; cbn [fold_left]; [now split|].
  pose proof (single_move_step i j st Hi (Hl j (or_introl eq_refl))) as H1. pose proof (single_move_len i j st) as H2.
  destruct (single_move eps D d C L i j st) as [st' b']; cbn [fst snd] in *.
  destruct (IH st' (b || b')%bool ltac:(lia) ltac:(intros; rewrite H2; apply Hl; now right) st0 ltac:(eapply step_trans; eassumption)) as [A B].
  cbn zeta. split; [exact A|]. cbn zeta in B. congruence.
Qed.
Lemma single_pass_step i st : (i < length (ws_routes st))%nat ->
  step st (fst (single_pass eps D d C L i st)) (snd (single_pass eps D d C L i st)) /\
  length (ws_routes (fst (single_pass eps D d C L i st))) = length (ws_routes st).
Proof using Heps HT Hd Hsym.
  intros Hi. unfold single_pass.
  pose proof (within_step 2 (fun r first => do_relocate_move eps r D first None) i st (or_intror eq_refl) eq_refl Hi) as H1.
  pose proof (within_len (fun r => do_relocate_move eps r D true None) i st) as H2.
  destruct (move_within (fun r => do_relocate_move eps r D true None) i st) as [st' b]; cbn [fst snd] in *.
  destruct (single_fold_step i (range 0 (length (ws_routes st'))) st' b ltac:(lia) (in_range _) st H1) as [A B].
  split; [exact A|]. cbn zeta in B. congruence.
Qed.
Lemma single_while_step i : forall fuel st imp st0, (i < length (ws_routes st))%nat -> step st0 st imp ->
  stepo st0 (fst (single_while eps D d C L fuel i st imp)) (snd (single_while eps D d C L fuel i st imp)).
Proof using Heps HT Hd Hsym.
  induction fuel as [|fuel IH]; intros st imp st0 Hi H0; cbn [single_while]; [eapply step_running; exact H0|].
  pose proof (single_pass_step i st Hi) as [H1 H2]. destruct (single_pass eps D d C L i st) as [st' [|]]; cbn [fst snd] in *.
  - apply IH; [now rewrite H2|]. apply step_weaken with (imp || true)%bool; [eapply step_trans; eassumption| |]; destruct imp; auto.
  - cbn [stepo]. replace imp with (imp || false)%bool by (now destruct imp). eapply step_trans; eassumption.
Qed.
Lemma single_pass_len i st : length (ws_routes (fst (single_pass eps D d C L i st))) = length (ws_routes st).
Proof using Type.
  unfold single_pass. pose proof (within_len (fun r => do_relocate_move eps r D true None) i st) as H2.
  destruct (move_within (fun r => do_relocate_move eps r D true None) i st) as [st' b]; cbn [fst snd] in *. rewrite <- H2. clear H2.
  generalize (range 0 (length (ws_routes st'))) as l. intros l. revert st' b.
  induction l as [|j l IH]; intros st' b; [reflexivity|]. cbn [fold_left]. pose proof (single_move_len i j st') as H.
  destruct (single_move eps D d C L i j st') as [st2 b2]. cbn [fst] in H. now rewrite IH.
Qed.
Lemma single_while_len i : forall fuel st imp, length (ws_routes (fst (single_while eps D d C L fuel i st imp))) = length (ws_routes st).
Proof using Type.
  induction fuel as [|fuel IH]; intros st imp; cbn [single_while]; [reflexivity|].
  pose proof (single_pass_len i st) as H. destruct (single_pass eps D d C L i st) as [st' [|]]; cbn [fst] in *; [now rewrite IH|exact H].
Qed.
Lemma single_len fuel st : length (ws_routes (fst (single_heuristic eps D d C L fuel st))) = length (ws_routes st).
Proof using Type.
  unfold single_heuristic. apply over_len. intros i st'. destruct (rd_is_empty _); [reflexivity|apply single_while_len].
Qed.
Lemma single_step fuel st : stepo st (fst (single_heuristic eps D d C L fuel st)) (snd (single_heuristic eps D d C L fuel st)).
Proof using Heps HT Hd Hsym.
  unfold single_heuristic. apply over_step with (n := length (ws_routes st)); [| |reflexivity|apply step_refl].
  - intros i st' Hi Hn. apply in_range in Hi. destruct (rd_is_empty _); [apply step_refl|]. apply single_while_step; [lia|apply step_refl].
  - intros i st'. destruct (rd_is_empty _); [reflexivity|apply single_while_len].
Qed.

(** ** pair *)
Lemma pair_move_len ix st : length (ws_routes (fst (pair_move eps N D d C L ix st))) = length (ws_routes st).
Proof using Type.
  unfold pair_move. destruct ix as [|i [|j [|k [|? ?]]]]; try reflexivity. destruct (rd_is_empty _ || rd_is_empty _)%bool; [reflexivity|].
  destruct (no_room _ _ _ _ _ _); [reflexivity|]. destruct (do_chain_move _ _ _ _ _ _ _ _ _ _) as [[[|a [|b [|c [|? ?]]]] ?]|]; try reflexivity.
  cbn [fst]. now rewrite !assign_len.
Qed.
Lemma pair_step st : stepo st (fst (pair_heuristic eps N D d C L st)) (snd (pair_heuristic eps N D d C L st)).
Proof using Heps HT Hd Hsym.
  unfold pair_heuristic. apply over_step with (n := length (ws_routes st)); [|apply pair_move_len|reflexivity|apply step_refl].
  intros ix st' Hi Hn. apply in_kperms in Hi; [|unfold range; apply seq_NoDup]. destruct Hi as (H1 & H2 & H3).
  unfold pair_move. destruct ix as [|i [|j [|k [|? ?]]]]; try apply step_refl. destruct (rd_is_empty _ || rd_is_empty _)%bool; [apply step_refl|].
  destruct (no_room _ _ _ _ _ _); [apply step_refl|].
  destruct (do_chain_move eps (route_at i st') (route_at j st') (route_at k st') D d C L true None) as [[[|a [|b [|c [|? ?]]]] delta]|] eqn:E1; try apply step_refl.
  cbn [fst snd]. apply (op_step 6 st' [i; j; k] [a; b; c] delta).
  - lia.
  - exact H2.
  - reflexivity.
  - intros x Hx. rewrite Hn. now apply in_range, H3.
  - exact E1.
Qed.
Lemma pair_ends st : exists st' b, pair_heuristic eps N D d C L st = (st', Ended b).
Proof using Type.
  unfold pair_heuristic. generalize (kperms 3 (range 0 (length (ws_routes st)))) as l. generalize false as imp. revert st.
  intros st imp l. revert st imp. induction l as [|ix l IH]; intros st imp; cbn [over]; [now eexists _, _|].
  assert (E : exists st' b, pair_move eps N D d C L ix st = (st', Ended b)).
  { unfold pair_move. destruct ix as [|i [|j [|k [|? ?]]]]; try (now eexists _, _). destruct (rd_is_empty _ || rd_is_empty _)%bool; [now eexists _, _|].
    destruct (no_room _ _ _ _ _ _); [now eexists _, _|].
    destruct (do_chain_move _ _ _ _ _ _ _ _ _ _) as [[[|a [|b [|c [|? ?]]]] ?]|]; now eexists _, _. }
  destruct E as (st' & b & ->). apply IH.
Qed.
Lemma pair_len st : length (ws_routes (fst (pair_heuristic eps N D d C L st))) = length (ws_routes st).
Proof using Type. unfold pair_heuristic. apply over_len, pair_move_len. Qed.
End Keep.
