(** * Wren and Holliday: the loops of the heuristics end *)
From Verif Require Import Spec Spec_ls Spec_inter PyBase M_util M_routedata M_intra M_inter M_driver Spec_driver M_psavings
     P_base P_cvrp P_rd P_scan P_intra P_intra2 P_inter P_inter2 P_inter3 P_driver P_driver2 P_mj2 M_wh P_wh P_wh2 P_wh3.
From Coq Require Import ZifyBool ZifyNat Lia List Permutation.
Import ListNotations.
Local Open Scope Z_scope.

Lemma metric_nonneg D : symmetric D -> triangle D -> forall i j, 0 <= D i j.
Proof. intros Hs Ht i j. pose proof (Ht i i i). pose proof (Ht i j i). pose proof (Hs i j). lia. Qed.
Lemma path_pos D : (forall i j, 0 <= D i j) -> forall l, 0 <= path_cost D l.
Proof. intros H. induction l as [|x [|y l] IH]; cbn [path_cost] in *; try lia. specialize (H x y). lia. Qed.
Lemma routes_pos D : (forall i j, 0 <= D i j) -> forall rs, 0 <= routes_cost D rs.
Proof.
  intros H rs. unfold routes_cost. induction rs as [|r rs IH]; cbn [map sumZ fold_right]; [reflexivity|].
  change (0 <= route_cost D r + sumZ (map (route_cost D) rs)). pose proof (path_pos D H (0%nat :: r ++ [0%nat])) as HR. fold (route_cost D r) in HR. unfold sumZ in *. lia.
Qed.

Lemma Forall2_exact_inj D d C : forall rs rs' rds, Forall2 (exact_rd D d C) rs rds -> Forall2 (exact_rd D d C) rs' rds -> rs = rs'.
Proof.
  intros rs rs' rds H. revert rs'. induction H as [|r rd rs rds H1 H2 IH]; intros rs' H'; inversion H' as [|r' ? rs2 ? H3 H4]; subst; [reflexivity|].
  f_equal; [apply wrap_inj; rewrite <- (proj1 H1); exact (proj1 H3)|now apply IH].
Qed.

Lemma NoDup_head {A} (l l' : list A) : NoDup (l ++ l') -> NoDup l.
Proof. intros H. eapply NoDup_app_r with l'. eapply Permutation_NoDup; [apply Permutation_app_comm|exact H]. Qed.

Section Ends.
Variables (eps : Z) (N : nat) (D : matrix) (d : demands) (C L : limit).
Notation exact := (exact_rd D d C).
Notation feas := (feasible D d C L eps eps).
Notation cost := (routes_cost D).
Notation ok := (ok eps D d C L).
Notation step := (step eps D d C L).
Hypothesis Heps : 0 <= eps.
Hypothesis Hsym : symmetric D.
Hypothesis HT : triangle D.
Hypothesis Hd : forall n, 0 <= d n.

Lemma cost_pos rs : 0 <= cost rs.
Proof using Hsym HT. apply routes_pos, metric_nonneg; assumption. Qed.

(** Whatever the fuel, from some amount on it ends, in the same way. *)
Definition total (f : nat -> wst * outcome) : Prop := exists f0 st' b, forall fuel, (f0 <= fuel)%nat -> f fuel = (st', Ended b).

Lemma inspect_while_total i : forall m cs rs st imp, (Z.to_nat (cost rs) < m)%nat -> ok cs rs st -> (i < length (ws_routes st))%nat ->
  total (fun fuel => inspect_while eps D fuel i st imp).
Proof using Heps Hsym HT Hd.
  induction m as [|m IH]; intros cs rs st imp Hm Ho Hi; [lia|].
  pose proof (within_step eps D d C L Heps Hsym HT Hd 0 (fun r first => do_2opt_move eps r D first None) i st (or_introl eq_refl) eq_refl Hi) as Hs.
  cbv beta in Hs. destruct (move_within (fun r => do_2opt_move eps r D true None) i st) as [st' [|]] eqn:E.
  - destruct (Hs cs rs Ho) as (rs' & O1 & L1 & _ & _ & C1). specialize (C1 eq_refl). pose proof (cost_pos rs'). pose proof (cost_pos rs).
    destruct (IH cs rs' st' true) as (f0 & st2 & b & Hf); [lia|exact O1| |].
    { apply ok_length in O1. apply ok_length in Ho. lia. }
    exists (S f0), st2, b. intros [|fuel] Hfu; [lia|]. cbn [inspect_while]. rewrite E. apply Hf. lia.
  - exists 1%nat, st', imp. intros [|fuel] Hfu; [lia|]. cbn [inspect_while]. now rewrite E.
Qed.
Lemma single_while_total i : forall m cs rs st imp, (Z.to_nat (cost rs) < m)%nat -> ok cs rs st -> (i < length (ws_routes st))%nat ->
  total (fun fuel => single_while eps D d C L fuel i st imp).
Proof using Heps Hsym HT Hd.
  induction m as [|m IH]; intros cs rs st imp Hm Ho Hi; [lia|].
  destruct (single_pass_step eps D d C L Heps Hsym HT Hd i st Hi) as [Hs _].
  destruct (single_pass eps D d C L i st) as [st' [|]] eqn:E; cbn [fst snd] in Hs.
  - destruct (Hs cs rs Ho) as (rs' & O1 & L1 & _ & _ & C1). specialize (C1 eq_refl). pose proof (cost_pos rs'). pose proof (cost_pos rs).
    destruct (IH cs rs' st' true) as (f0 & st2 & b & Hf); [lia|exact O1| |].
    { apply ok_length in O1. apply ok_length in Ho. lia. }
    exists (S f0), st2, b. intros [|fuel] Hfu; [lia|]. cbn [single_while]. rewrite E. apply Hf. lia.
  - exists 1%nat, st', imp. intros [|fuel] Hfu; [lia|]. cbn [single_while]. now rewrite E.
Qed.

Lemma over_total {A} (body : nat -> A -> wst -> wst * outcome) (P : wst -> Prop) : forall l,
  (forall x st, In x l -> P st -> total (fun fuel => body fuel x st)) ->
  (forall x st fuel, In x l -> P st -> P (fst (body fuel x st))) ->
  forall st imp, P st -> total (fun fuel => over l (body fuel) st imp).
Proof using Type.
  clear. induction l as [|x l IH]; intros H1 H2 st imp HP.
  - exists 0%nat, st, imp. reflexivity.
  - destruct (H1 x st (or_introl eq_refl) HP) as (f1 & st1 & b1 & E1).
    assert (HP1 : P st1) by (specialize (H2 x st f1 (or_introl eq_refl) HP); rewrite E1 in H2 by lia; exact H2).
    destruct (IH (fun y s Hy => H1 y s (or_intror Hy)) (fun y s f Hy => H2 y s f (or_intror Hy)) st1 (imp || b1)%bool HP1) as (f2 & st2 & b2 & E2).
    exists (Nat.max f1 f2), st2, b2. intros fuel Hfu. cbn [over]. rewrite E1 by lia. apply E2. lia.
Qed.

Definition fine (K : nat) (cs : list nat) (st : wst) : Prop := length (ws_routes st) = K /\ exists rs, ok cs rs st.
Lemma stepo_fine K cs st st' o : fine K cs st -> stepo eps D d C L st st' o -> fine K cs st'.
Proof using Type.
  intros (H1 & rs & H2) H3. assert (H4 : running eps D d C L st st') by (destruct o; [eapply step_running; exact H3|exact H3]).
  destruct (H4 cs rs H2) as (rs' & O & Hl & _). split; [|now exists rs']. pose proof (ok_length _ _ _ _ _ _ _ _ O). pose proof (ok_length _ _ _ _ _ _ _ _ H2). congruence.
Qed.
Lemma inspect_total cs rs st : ok cs rs st -> total (fun fuel => inspect_heuristic eps D fuel st).
Proof using Heps Hsym HT Hd.
  intros Ho. unfold inspect_heuristic.
  apply (over_total (fun fuel i st => if rd_is_empty (route_at i st) then (st, Ended false) else inspect_while eps D fuel i st false)
    (fine (length (ws_routes st)) cs)).
  - intros i s Hi (Hl & rs' & Ho'). apply in_range in Hi. destruct (rd_is_empty _); [now exists 0%nat, s, false|].
    apply (inspect_while_total i (S (Z.to_nat (cost rs'))) cs rs' s); [lia|exact Ho'|lia].
  - intros i s fuel Hi Hf. apply in_range in Hi. destruct (rd_is_empty _); [exact Hf|].
    eapply stepo_fine; [exact Hf|]. apply inspect_while_step; try assumption; [destruct Hf as [-> _]; exact Hi|apply step_refl].
  - split; [reflexivity|now exists rs].
Qed.
Lemma single_total cs rs st : ok cs rs st -> total (fun fuel => single_heuristic eps D d C L fuel st).
Proof using Heps Hsym HT Hd.
  intros Ho. unfold single_heuristic.
  apply (over_total (fun fuel i st => if rd_is_empty (route_at i st) then (st, Ended false) else single_while eps D d C L fuel i st false)
    (fine (length (ws_routes st)) cs)).
  - intros i s Hi (Hl & rs' & Ho'). apply in_range in Hi. destruct (rd_is_empty _); [now exists 0%nat, s, false|].
    apply (single_while_total i (S (Z.to_nat (cost rs'))) cs rs' s); [lia|exact Ho'|lia].
  - intros i s fuel Hi Hf. apply in_range in Hi. destruct (rd_is_empty _); [exact Hf|].
    eapply stepo_fine; [exact Hf|]. apply single_while_step; try assumption; [destruct Hf as [-> _]; exact Hi|apply step_refl].
  - split; [reflexivity|now exists rs].
Qed.

(** ** refine *)
Variable set_order : list nat -> list nat.
Hypothesis Hset : forall l, Permutation (set_order l) l.
Definition rok (rs : list (list nat)) (om : list nat) (rds : list routedata) : Prop :=
  Forall2 exact rs rds /\ Forall feas rs /\ distinct_customers (rs ++ [om]).
Lemma rok_ok rs om rds : rok rs om rds -> ok (concat rs) rs (mkw rds []).
Proof using Type.
  intros (H1 & H2 & H3 & H4). rewrite concat_app in H3, H4. unfold P_wh.ok. cbn [ws_routes ws_log]. split; [exact H1|]. split.
  { split; [eapply NoDup_head; exact H3|]. unfold customers_only in *. apply Forall_app in H4. apply H4. }
  split; [exact H2|]. split; [apply incl_refl|constructor].
Qed.
Lemma rok_perm rs om rds rs' om' : rok rs om rds -> Permutation (concat rs' ++ om') (concat rs ++ om) -> distinct_customers (rs' ++ [om']).
Proof using Type.
  intros (_ & _ & H) HP. unfold distinct_customers in *. rewrite !concat_app in *. cbn [concat] in *. rewrite !app_nil_r in *. destruct H as [H1 H2].
  split; [eapply Permutation_NoDup; [symmetry; exact HP|exact H1]|]. unfold customers_only in *. rewrite Forall_forall in *. intros x Hx. apply H2.
  eapply Permutation_in; eassumption.
Qed.

(** What one turn of the refinement does, when the heuristics end *)
Definition turn_of (rds : list routedata) (om : list nat) (st2 : wst) : list routedata * list nat * bool :=
  match om with [] => (ws_routes st2, [], false) | _ => complain_heuristic eps D d C L set_order (ws_routes st2) om end.
Lemma turn_ok rs om rds fuel st1 st2 b1 b2 rds' om' b3 : rok rs om rds ->
  inspect_heuristic eps D fuel (mkw rds []) = (st1, Ended b1) ->
  single_heuristic eps D d C L fuel (mkw (ws_routes st1) []) = (st2, Ended b2) -> turn_of rds om st2 = (rds', om', b3) ->
  exists rs', rok rs' om' rds' /\ length rs' = length rs /\ Permutation (concat rs' ++ om') (concat rs ++ om) /\
  ((b1 || b2 || b3)%bool = true -> (length om' < length om)%nat \/ (length om' = length om /\ demand d om' < demand d om) \/ (om' = om /\ cost rs' < cost rs)).
Proof using Heps Hsym HT Hd Hset.
  intros H E1 E2 E3. pose proof (rok_ok _ _ _ H) as Ho.
  pose proof (inspect_step eps D d C L Heps Hsym HT Hd fuel (mkw rds [])) as S1. rewrite E1 in S1. cbn [fst snd stepo] in S1.
  destruct (S1 _ _ Ho) as (r1 & O1 & L1 & P1 & F1 & T1).
  assert (R1 : rok r1 om (ws_routes st1)).
  { split; [apply O1|]. split; [apply O1|]. eapply rok_perm; [exact H|]. now apply Permutation_app_tail. }
  pose proof (rok_ok _ _ _ R1) as Ho1.
  pose proof (single_step eps D d C L Heps Hsym HT Hd fuel (mkw (ws_routes st1) [])) as S2. rewrite E2 in S2. cbn [fst snd stepo] in S2.
  destruct (S2 _ _ Ho1) as (r2 & O2 & L2 & P2 & F2 & T2).
  assert (R2 : rok r2 om (ws_routes st2)).
  { split; [apply O2|]. split; [apply O2|]. eapply rok_perm; [exact R1|]. now apply Permutation_app_tail. }
  assert (Hc12 : cost r2 <= cost rs /\ ((b1 || b2)%bool = true -> cost r2 < cost rs)).
  { clear - F1 F2 T1 T2. destruct b1; [specialize (T1 eq_refl)|destruct (F1 eq_refl) as [_ ->]]; (destruct b2; [specialize (T2 eq_refl)|destruct (F2 eq_refl) as [_ ->]]); cbn [orb]; split; try lia; discriminate. }
  assert (Hperm : Permutation (concat r2 ++ om) (concat rs ++ om)) by (apply Permutation_app_tail; etransitivity; eassumption).
  destruct (complain_ok eps D d C L set_order Hset r2 (ws_routes st2) om) as (rs' & rds2 & om2 & b4 & E4 & A1 & A2 & A3 & A4 & A5 & A6).
  { apply R2. } { apply R2. } { destruct R2 as (_ & _ & R2 & _). rewrite concat_app in R2. cbn [concat] in R2. now rewrite app_nil_r in R2. }
  unfold turn_of in E3. destruct om as [|x om].
  - injection E3 as <- <- <-. exists r2. split; [exact R2|]. split; [congruence|]. split; [exact Hperm|].
    rewrite orb_false_r. intros Hb; right; right; split; [reflexivity|now apply Hc12].
  - rewrite E4 in E3. injection E3 as -> -> ->. exists rs'. split.
    { split; [exact A1|]. split; [exact A3|]. eapply rok_perm; [exact R2|exact A4]. }
    split; [congruence|]. split; [etransitivity; [exact A4|exact Hperm]|].
    destruct b3. { intros _. destruct (A6 eq_refl) as [F|F]; auto. }
    destruct (A5 eq_refl) as [-> ->]. rewrite orb_false_r. intros Hb. right; right. split; [reflexivity|].
    assert (Er : rs' = r2) by (apply (Forall2_exact_inj D d C rs' r2 (ws_routes st2)); [exact A1|apply R2]).
    subst. now apply Hc12.
Qed.
Lemma refine_eq fuel rds om st1 st2 b1 b2 : inspect_heuristic eps D fuel (mkw rds []) = (st1, Ended b1) ->
  single_heuristic eps D d C L fuel (mkw (ws_routes st1) []) = (st2, Ended b2) ->
  refine eps D d C L set_order (S fuel) rds om = let '(rds', om', b3) := turn_of rds om st2 in
    if (b1 || b2 || b3)%bool then refine eps D d C L set_order fuel rds' om' else Some (rds', om').
Proof using Type. intros E1 E2. cbn [refine]. rewrite E1, E2. reflexivity. Qed.
Lemma refine_turn rs om rds : rok rs om rds -> exists f0 rs' om' rds' b, rok rs' om' rds' /\ length rs' = length rs /\
  Permutation (concat rs' ++ om') (concat rs ++ om) /\
  (b = true -> (length om' < length om)%nat \/ (length om' = length om /\ demand d om' < demand d om) \/ (om' = om /\ cost rs' < cost rs)) /\
  (forall fuel, (f0 <= fuel)%nat -> refine eps D d C L set_order (S fuel) rds om =
     if b then refine eps D d C L set_order fuel rds' om' else Some (rds', om')).
Proof using Heps Hsym HT Hd Hset.
  intros H. pose proof (rok_ok _ _ _ H) as Ho.
  destruct (inspect_total _ _ _ Ho) as (f1 & st1 & b1 & E1).
  pose proof (inspect_step eps D d C L Heps Hsym HT Hd f1 (mkw rds [])) as S1. rewrite E1 in S1 by lia. cbn [fst snd stepo] in S1.
  destruct (S1 _ _ Ho) as (r1 & O1 & L1 & P1 & F1 & T1).
  assert (R1 : rok r1 om (ws_routes st1)).
  { split; [apply O1|]. split; [apply O1|]. eapply rok_perm; [exact H|]. now apply Permutation_app_tail. }
  destruct (single_total _ _ _ (rok_ok _ _ _ R1)) as (f2 & st2 & b2 & E2).
  destruct (turn_of rds om st2) as [[rds' om'] b3] eqn:E3.
  destruct (turn_ok rs om rds (Nat.max f1 f2) st1 st2 b1 b2 rds' om' b3 H) as (rs' & A1 & A2 & A3 & A4); [apply E1; lia|apply E2; lia|exact E3|].
  exists (Nat.max f1 f2), rs', om', rds', (b1 || b2 || b3)%bool. repeat (split; [assumption|]).
  intros fuel Hf. rewrite (refine_eq fuel rds om st1 st2 b1 b2) by (apply E1 || apply E2; lia). now rewrite E3.
Qed.
Lemma refine_spec : forall fuel rs om rds rds' om', rok rs om rds -> refine eps D d C L set_order fuel rds om = Some (rds', om') ->
  exists rs', rok rs' om' rds' /\ length rs' = length rs /\ Permutation (concat rs' ++ om') (concat rs ++ om).
Proof using Heps Hsym HT Hd Hset.
  induction fuel as [|fuel IH]; intros rs om rds rds' om' H E; [discriminate|].
  destruct (inspect_heuristic eps D fuel (mkw rds [])) as [st1 [b1|]] eqn:E1; [|cbn [refine] in E; rewrite E1 in E; discriminate].
  destruct (single_heuristic eps D d C L fuel (mkw (ws_routes st1) [])) as [st2 [b2|]] eqn:E2; [|cbn [refine] in E; rewrite E1, E2 in E; discriminate].
  rewrite (refine_eq fuel rds om st1 st2 b1 b2 E1 E2) in E. destruct (turn_of rds om st2) as [[rds1 om1] b3] eqn:E3.
  destruct (turn_ok rs om rds fuel st1 st2 b1 b2 rds1 om1 b3 H E1 E2 E3) as (rs1 & A1 & A2 & A3 & A4).
  destruct (b1 || b2 || b3)%bool.
  - destruct (IH rs1 om1 rds1 rds' om' A1 E) as (rs' & B1 & B2 & B3). exists rs'. split; [exact B1|]. split; [congruence|etransitivity; eassumption].
  - injection E as <- <-. now exists rs1.
Qed.

(** The refinement ends and keeps the customers, the number of routes and the limits. *)
Definition refines (rs : list (list nat)) (om : list nat) (rds : list routedata) : Prop :=
  exists f0 rs' om' rds', (forall fuel, (f0 <= fuel)%nat -> refine eps D d C L set_order fuel rds om = Some (rds', om')) /\
    rok rs' om' rds' /\ length rs' = length rs /\ Permutation (concat rs' ++ om') (concat rs ++ om).
Lemma refine_next rs om rds rs' om' rds' (b : bool) f0 : (b = true -> refines rs' om' rds') -> rok rs' om' rds' -> length rs' = length rs ->
  Permutation (concat rs' ++ om') (concat rs ++ om) ->
  (forall fuel, (f0 <= fuel)%nat -> refine eps D d C L set_order (S fuel) rds om =
     if b then refine eps D d C L set_order fuel rds' om' else Some (rds', om')) -> refines rs om rds.
Proof using Type.
  clear Hset Hd. intros Hb H1 H2 H3 HE. destruct b.
  - destruct (Hb eq_refl) as (f1 & r2 & o2 & d2 & E & A1 & A2 & A3). exists (S (Nat.max f0 f1)), r2, o2, d2. split; [|split; [exact A1|split; [congruence|etransitivity; eassumption]]].
    intros [|fuel] Hf; [lia|]. rewrite HE by lia. apply E. lia.
  - exists (S f0), rs', om', rds'. split; [|now split]. intros [|fuel] Hf; [lia|]. apply HE. lia.
Qed.
Lemma demand_pos l : 0 <= demand d l.
Proof using Hd. clear Hset set_order. unfold demand. induction l as [|x l IH]; [reflexivity|]. cbn. specialize (Hd x). unfold sumZ in *. lia. Qed.
Lemma refine_ends : forall k m c rs om rds, (length om < k)%nat -> (Z.to_nat (demand d om) < m)%nat -> (Z.to_nat (cost rs) < c)%nat ->
  rok rs om rds -> refines rs om rds.
Proof using Heps Hsym HT Hd Hset.
  induction k as [|k IHk]; [lia|]. induction m as [|m IHm]; [lia|]. induction c as [|c IHc]; [lia|].
  intros rs om rds Hk Hm Hc H. destruct (refine_turn rs om rds H) as (f0 & rs' & om' & rds' & b & R & Hl & HP & Hp & HE).
  eapply refine_next; [|exact R|exact Hl|exact HP|exact HE]. intros Hb. pose proof (cost_pos rs') as X1. pose proof (cost_pos rs) as X2.
  pose proof (demand_pos om') as X3. pose proof (demand_pos om) as X4.
  destruct (Hp Hb) as [Q|[[Q1 Q2]|[-> Q]]].
  - apply (IHk (S (Z.to_nat (demand d om'))) (S (Z.to_nat (cost rs')))); [lia|lia|lia|exact R].
  - apply (IHm (S (Z.to_nat (cost rs')))); [lia|lia|lia|exact R].
  - apply IHc; [lia|lia|lia|exact R].
Qed.
Lemma refine_ok rs om rds : rok rs om rds -> refines rs om rds.
Proof using Heps Hsym HT Hd Hset. intros H. eapply (refine_ends (S _) (S _) (S _)); try apply Nat.lt_succ_diag_r. exact H. Qed.
End Ends.
