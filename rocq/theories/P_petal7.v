(** * Proofs about the petal algorithm: the loop *)
From Verif Require Import Spec Spec_rfcs Spec_inter Spec_savings Spec_petal PyBase M_util M_cvrp_ops M_routedata M_inter M_ssavings P_driver P_inter P_inter2 M_petal P_petal2 P_petal3 P_petal4 P_petal5 P_petal6 P_cvrp P_base.
From Coq Require Import ZifyBool ZifyNat Lia Arith List Permutation.
Import ListNotations.
Local Open Scope Z_scope.

Lemma seen_inZ_true r l : seen_inZ r l = true <-> In r l.
Proof.
  unfold seen_inZ. rewrite existsb_exists. split.
  - intros (s & Hs & H). destruct (list_eq_dec Z.eq_dec r s); [now subst|discriminate].
  - intros H. exists r. split; [exact H|]. destruct (list_eq_dec Z.eq_dec r r); [reflexivity|contradiction].
Qed.

(** Finitely many lists *)
Fixpoint words {A} (k : nat) (al : list A) : list (list A) :=
  match k with O => [[]] | S k' => [] :: flat_map (fun w => map (fun x => x :: w) al) (words k' al) end.
Lemma in_words {A} (al : list A) : forall k w, (length w <= k)%nat -> incl w al -> In w (words k al).
Proof.
  induction k as [|k IH]; intros w Hl Hi; [destruct w; [now left|cbn in Hl; lia]|]. destruct w as [|x w]; [now left|]. right. apply in_flat_map. exists w.
  split; [apply IH; [cbn in Hl; lia|intros y Y; apply Hi; now right]|]. apply in_map_iff. exists x. split; [reflexivity|apply Hi; now left].
Qed.

Section Loop.
Variable eps : Z.
Variables gurobi feas_relax : scp -> status.
Variable quicksum : list bool -> Z.
Variable N : nat.
Variable D : matrix.
Variable d : demands.
Variables C L : limit.
Hypothesis Heps : 0 <= eps.
Hypothesis Hsym : symmetric D.
Hypothesis Htri : triangle D.
Hypothesis HD0 : D 0%nat 0%nat = 0.
Hypothesis Hd : forall n, 0 <= d n.
Hypothesis Hd0 : d 0%nat = 0.
Hypothesis Hhonest : honest quicksum N gurobi.
Hypothesis HN : (2 <= N)%nat.
Variables minimize_K : bool.
Variable K : option Z.
Variable relaxe : bool.
Variables required min_iter : option nat.
Variable disc : discarding.
Variable limit_all : nat.
Variables restricted reduced extended : list petal.
Let base := restricted ++ reduced ++ extended.
Notation okp := (ok_petal eps N D d C L).
Hypothesis Hbase : Forall okp base.
Hypothesis Hsingle : forall n, (1 <= n < N)%nat -> In (wrap [n]) (pt_routes base).
Notation act := (active_of restricted reduced extended).
Notation iter := (petal_iter eps gurobi feas_relax N D d C L minimize_K K relaxe required min_iter disc limit_all restricted reduced extended).
Notation loop := (petal_loop eps gurobi feas_relax N D d C L minimize_K K relaxe required min_iter disc limit_all restricted reduced extended).
Notation combo := (combo_ok restricted reduced extended).
Notation nat_ := (nodes_at base).

Definition Inv (st : ptst) : Prop :=
  Forall okp (ps_relaxed st) /\ NoDup (pt_routes (ps_relaxed st)) /\ incl (pt_routes (ps_relaxed st)) (ps_seen st) /\
  Forall (combo (ps_relaxed st)) (ps_forbidden st) /\ NoDup (ps_forbidden st) /\
  if ps_feas st
  then exists rs, ps_best st = Some (encode rs) /\ serves_all N D d C L eps rs /\ ps_f st = Some (routes_cost D rs) /\
       (minimize_K = false -> Forall (fun fz => covers N (map (nat_ (ps_relaxed st)) fz) -> routes_cost D rs <= routes_cost D (map (nat_ (ps_relaxed st)) fz)) (ps_forbidden st))
  else Forall (fun fz => ~ covers N (map (nat_ (ps_relaxed st)) fz)) (ps_forbidden st) /\
       (ps_best st = None \/ exists rs, ps_best st = Some (encode rs) /\ serves_some N D d C L eps rs).

Lemma all_some rs : serves_all N D d C L eps rs -> serves_some N D d C L eps rs.
Proof using All.
  intros [H1 H2]. split; [apply (Permutation_NoDup (Permutation_sym H1)), seq_NoDup|]. split; [|exact H2]. intros x Hx. apply (Permutation_in _ H1), in_seq in Hx. lia.
Qed.

Lemma inv_best st : Inv st -> ps_best st = None \/ exists rs, ps_best st = Some (encode rs) /\ serves_some N D d C L eps rs.
Proof using All.
  intros (_ & _ & _ & _ & _ & H). destruct (ps_feas st); [|apply H]. destruct H as (rs & H1 & H2 & _). right. exists rs. split; [exact H1|apply all_some, H2].
Qed.

Lemma best_case st f k : minimize_K = false -> ps_feas st = true -> forall bf, ps_f st = Some bf -> (better_or_same minimize_K st f k = true -> f <= bf) /\ (better_or_same minimize_K st f k = false -> bf <= f).
Proof using All.
  intros Hm _ bf Hf. unfold better_or_same. rewrite Hf, Hm. cbn [is_better_sol]. split; intros H; lia.
Qed.

Lemma found_keeps st ph : Inv st -> phase1 gurobi feas_relax K restricted reduced extended st = Some ph -> ph_int ph = false -> ph_routes ph <> [] ->
  seen_inZ (map snd (ph_routes ph)) (ps_forbidden st) = false ->
  exists rs, fst (fst (treat N D st ph)) = map wrap rs /\ rs <> [] /\ serves_some N D d C L eps rs /\
    (snd (fst (treat N D st ph)) = true -> serves_all N D d C L eps rs) /\
    Forall (combo (ps_relaxed st)) (ps_forbidden st ++ [map snd (ph_routes ph)]) /\ NoDup (ps_forbidden st ++ [map snd (ph_routes ph)]) /\
    (covers N (map (nat_ (ps_relaxed st)) (map snd (ph_routes ph))) -> snd (fst (treat N D st ph)) = true /\ routes_cost D rs <= routes_cost D (map (nat_ (ps_relaxed st)) (map snd (ph_routes ph)))) /\
    (ph_feas ph = true -> routes_cost D rs = routes_cost D (map (nat_ (ps_relaxed st)) (map snd (ph_routes ph)))).
Proof using All.
  intros (I1 & I2 & I3 & I4 & I5 & _) E Hint Hne Hnew.
  destruct (chosen_ok eps gurobi feas_relax quicksum N D d C L Heps Hsym Htri HD0 Hd Hd0 Hhonest restricted reduced extended Hbase K st ph ltac:(lia) I1 E Hint Hne) as (rs & R1 & R2 & R3 & R4 & R5 & R6 & R7).
  exists rs. do 4 (split; [assumption|]). split; [apply Forall_app; split; [exact I4|constructor; [exact R4|constructor]]|]. split; [|auto].
  apply NoDup_app_intro; [exact I5|repeat constructor; easy|]. intros y Y [<-|[]]. apply seen_inZ_true in Y. congruence.
Qed.

Lemma inv_more st : Inv st -> forall more seen set mx al K' it cnt, Forall okp (ps_relaxed st ++ more) -> NoDup (pt_routes (ps_relaxed st ++ more)) -> incl (pt_routes (ps_relaxed st ++ more)) seen ->
  Inv (mkpst set mx seen (ps_relaxed st ++ more) (ps_forbidden st) (ps_best st) (ps_f st) (ps_bK st) (ps_feas st) al K' it cnt).
Proof using All.
  intros (I1 & I2 & I3 & I4 & I5 & I6) more seen set mx al K' it cnt H1 H2 H3.
  assert (HM : forall fz, In fz (ps_forbidden st) -> map (nat_ (ps_relaxed st ++ more)) fz = map (nat_ (ps_relaxed st)) fz).
  { intros fz Hf. rewrite Forall_forall in I4. eapply nodes_more; eauto. }
  unfold Inv. cbn [ps_relaxed ps_seen ps_forbidden ps_best ps_f ps_bK ps_feas]. split; [exact H1|]. split; [exact H2|]. split; [exact H3|].
  split; [|split; [exact I5|]].
  - apply Forall_forall. intros fz Hf. rewrite Forall_forall in I4. eapply combo_more; eauto.
  - destruct (ps_feas st).
    + destruct I6 as (rs & A1 & A2 & A3 & A4). exists rs. do 3 (split; [assumption|]). intros Hm. specialize (A4 Hm). rewrite Forall_forall in *. intros fz Hf. rewrite HM by exact Hf. apply A4, Hf.
    + destruct I6 as [A1 A2]. split; [|exact A2]. rewrite Forall_forall in *. intros fz Hf. rewrite HM by exact Hf. apply A1, Hf.
Qed.

(** The state after the choice, before new petals are added *)
Lemma inv_choice st ph : Inv st -> phase1 gurobi feas_relax K restricted reduced extended st = Some ph -> ph_int ph = false -> ph_routes ph <> [] ->
  seen_inZ (map snd (ph_routes ph)) (ps_forbidden st) = false ->
  forall routes feas allow, treat N D st ph = (routes, feas, allow) ->
  let sol := match routes2sol (map Some routes) with Some s => s | None => [] end in
  let f := objf sol D in
  let k := (count_occ Nat.eq_dec sol 0%nat - 1)%nat in
  let bos := better_or_same minimize_K st f k in
  let accept := if ps_feas st then feas && bos else feas || bos in
  exists rs, routes = map wrap rs /\ serves_some N D d C L eps rs /\ sol = encode rs /\
  forall set mx al K' it cnt, Inv (mkpst set mx (ps_seen st) (ps_relaxed st) (ps_forbidden st ++ [map snd (ph_routes ph)])
     (if accept then Some sol else ps_best st) (if accept then Some f else ps_f st) (if accept then k else ps_bK st) (if accept then feas else ps_feas st) al K' it cnt).
Proof using All.
  intros HI E Hint Hne Hnew routes feas allow Et sol f k bos accept. destruct (found_keeps st ph HI E Hint Hne Hnew) as (rs & R1 & R2 & R3 & R4 & R5 & R6 & R7 & R8).
  rewrite Et in *. cbn [fst snd] in *. exists rs. split; [exact R1|]. split; [exact R3|].
  assert (Esol : sol = encode rs) by (unfold sol; rewrite R1, routes2sol_wraps by exact R2; reflexivity). split; [exact Esol|].
  assert (Ef : f = routes_cost D rs) by (unfold f; rewrite Esol, objf_path; apply path_cost_encode).
  intros set mx al K' it cnt. destruct HI as (I1 & I2 & I3 & I4 & I5 & I6). unfold Inv. cbn [ps_relaxed ps_seen ps_forbidden ps_best ps_f ps_bK ps_feas]. do 5 (split; [assumption|]).
  destruct (ps_feas st) eqn:Efe.
  - destruct I6 as (rs0 & A1 & A2 & A3 & A4). unfold accept. destruct (feas && bos) eqn:Ea.
    + apply andb_prop in Ea. destruct Ea as [-> Ebos]. exists rs. split; [now rewrite Esol|]. split; [auto|]. split; [now rewrite Ef|]. intros Hm. specialize (A4 Hm).
      destruct (best_case st f k Hm Efe _ A3) as [B1 _]. specialize (B1 Ebos). apply Forall_app. split.
      * rewrite Forall_forall in *. intros fz Hf Hc. specialize (A4 fz Hf Hc). lia.
      * constructor; [|constructor]. intros Hc. apply R7, Hc.
    + exists rs0. do 3 (split; [assumption|]). intros Hm. specialize (A4 Hm). destruct (best_case st f k Hm Efe _ A3) as [_ B1]. apply Forall_app. split; [exact A4|].
      constructor; [|constructor]. intros Hc. destruct (R7 Hc) as [F1 F2]. rewrite F1 in Ea. cbn in Ea. specialize (B1 Ea). lia.
  - destruct I6 as [A1 A2]. unfold accept. destruct feas; cbn [orb].
    + exists rs. split; [now rewrite Esol|]. split; [auto|]. split; [now rewrite Ef|]. intros _. apply Forall_app. split.
      * rewrite Forall_forall in *. intros fz Hf Hc. exfalso. exact (A1 fz Hf Hc).
      * constructor; [|constructor]. intros Hc. apply R7, Hc.
    + assert (HFn : Forall (fun fz => ~ covers N (map (nat_ (ps_relaxed st)) fz)) (ps_forbidden st ++ [map snd (ph_routes ph)])).
      { apply Forall_app. split; [exact A1|]. constructor; [|constructor]. intros Hc. destruct (R7 Hc) as [X _]. discriminate. }
      destruct bos; (split; [exact HFn|]); [right; exists rs; split; [now rewrite Esol|exact R3]|exact A2].
Qed.

(** ** A round that goes on *)
Lemma step_inl st st' : Inv st -> iter st = inl st' ->
  Inv st' /\ (truthy (ps_K st) = None -> truthy (ps_K st') = None /\
    ((length (ps_forbidden st') = S (length (ps_forbidden st)) /\ (set_num (ps_set st) <= set_num (ps_set st'))%nat) \/
     (ps_forbidden st' = ps_forbidden st /\ (set_num (ps_set st) < set_num (ps_set st') <= 3)%nat))).
Proof using All.
  intros HI. unfold petal_iter. cbv zeta. destruct (phase1 gurobi feas_relax K restricted reduced extended st) as [ph|] eqn:E1; [|discriminate].
  pose proof (phase1_ok eps gurobi feas_relax quicksum N D d C L Heps Hsym Htri HD0 Hd Hd0 Hhonest restricted reduced extended Hbase K st ph E1) as (P1 & P2 & P3).
  destruct (match ph_routes ph with [] => false | _ :: _ => negb (seen_inZ (map snd (ph_routes ph)) (ps_forbidden st)) end) eqn:Efound.
  - change (if negb (ph_feas ph) && negb (ph_int ph) then let '(rs, ok) := remove_multiserved N D (map fst (ph_routes ph)) in (rs, ok, ps_allow st) else (map fst (ph_routes ph), ph_feas ph, false)) with (treat N D st ph).
    destruct (treat N D st ph) as [[routes feas] allow] eqn:Et.
    set (sol := match routes2sol (map Some routes) with Some s => s | None => [] end). set (f := objf sol D). set (k := (count_occ Nat.eq_dec sol 0%nat - 1)%nat).
    set (accept := if ps_feas st then feas && better_or_same minimize_K st f k else feas || better_or_same minimize_K st f k).
    match goal with |- match ?e with _ => _ end = _ -> _ => destruct e as [[set' K'] stop] eqn:Enext end.
    destruct (if accept then (Some sol, Some f, k, feas) else (ps_best st, ps_f st, ps_bK st, ps_feas st)) as [[[best bf] bK] bfeas] eqn:Ebest.
    match goal with |- context [if ?c || ph_int ph then _ else _] => destruct c; [discriminate|] end. cbn [orb].
    destruct (ph_int ph) eqn:Eint; [discriminate|].
    assert (Hne : ph_routes ph <> []) by (destruct (ph_routes ph); discriminate).
    assert (Hnew : seen_inZ (map snd (ph_routes ph)) (ps_forbidden st) = false) by (destruct (ph_routes ph); [discriminate|]; now apply negb_true_iff in Efound).
    destruct (inv_choice st ph HI E1 Eint Hne Hnew routes feas allow Et) as (rs & R1 & R2 & R3 & R4). fold sol f k accept in R4.
    assert (HI2 : forall set mx al K' it cnt, Inv (mkpst set mx (ph_seen ph) (ps_relaxed st) (ps_forbidden st ++ [map snd (ph_routes ph)]) best bf bK bfeas al K' it cnt)).
    { intros set mx al K0 it cnt. assert (HH : Inv (mkpst set mx (ps_seen st) (ps_relaxed st) (ps_forbidden st ++ [map snd (ph_routes ph)]) best bf bK bfeas al K0 it cnt)).
      { specialize (R4 set mx al K0 it cnt). destruct accept; injection Ebest as <- <- <- <-; exact R4. }
      pose proof (inv_more _ HH [] (ph_seen ph) set mx al K0 it cnt) as HM. cbn [ps_relaxed ps_forbidden ps_best ps_f ps_bK ps_feas] in HM. rewrite app_nil_r in HM.
      destruct HI as (I1 & I2 & I3 & _). apply HM; auto. eapply incl_tran; eassumption. }
    assert (Hsets : truthy (ps_K st) = None -> truthy K' = None /\ (set_num (ps_set st) <= set_num set')%nat).
    { intros HK. destruct accept; [injection Enext as <- <- _; auto|]. destruct (ph_set ph) eqn:Es; cbn [set_num] in P1.
      - injection Enext as <- <- _. split; [exact HK|cbn; lia].
      - destruct (_ || _) in Enext; [injection Enext as <- <- _; split; [exact HK|cbn; lia]|]. rewrite HK in Enext. injection Enext as <- <- _. split; [exact HK|cbn; lia].
      - destruct (_ || _) in Enext; [injection Enext as <- <- _; split; [exact HK|cbn; lia]|]. rewrite HK in Enext. injection Enext as <- <- _. split; [exact HK|cbn; lia]. }
    destruct relaxe.
    + pose proof (relaxations_ok eps N D d C L Heps Htri HD0 Hd Hd0 rs R2 (discard_at_most disc (map wrap rs))) as HG. rewrite R1.
      specialize (HI2 set' (ph_max ph) allow K' (S (ps_iter st)) 0%nat). pose proof HI2 as HI2'. destruct HI2 as (J1 & J2 & J3 & _). cbn [ps_relaxed ps_seen] in J1, J2, J3.
      destruct (add_relaxed_ok eps gurobi feas_relax quicksum N D d C L Heps Hsym Htri HD0 Hd Hd0 Hhonest restricted reduced extended Hbase K _ HG (ph_seen ph) (ps_relaxed st) (ps_cnt st) J1 J2 J3) as (seen' & more & cnt' & A1 & A2 & A3 & A4).
      rewrite A1. intros H. injection H as <-. split; [exact (inv_more _ HI2' more seen' set' (ph_max ph) allow K' (S (ps_iter st)) cnt' A2 A3 A4)|].
      intros HK. destruct (Hsets HK) as [S1 S2]. cbn [ps_K ps_forbidden ps_set]. split; [exact S1|]. left. rewrite app_length. cbn. split; [lia|exact S2].
    + intros H. injection H as <-. split; [apply HI2|]. intros HK. destruct (Hsets HK) as [S1 S2]. cbn [ps_K ps_forbidden ps_set]. split; [exact S1|]. left. rewrite app_length. cbn. split; [lia|exact S2].
  - assert (HI2 : forall set mx al K' it cnt, Inv (mkpst set mx (ph_seen ph) (ps_relaxed st) (ps_forbidden st) (ps_best st) (ps_f st) (ps_bK st) (ps_feas st) al K' it cnt)).
    { intros set mx al K' it cnt. pose proof (inv_more st HI [] (ph_seen ph) set mx al K' it cnt) as HM. rewrite app_nil_r in HM. destruct HI as (I1 & I2 & I3 & _). apply HM; auto. eapply incl_tran; eassumption. }
    destruct (ph_set ph) eqn:Es; cbn [set_num] in P1.
    + destruct (ph_int ph); [discriminate|]. intros H. injection H as <-. split; [apply HI2|]. intros HK. cbn [ps_K ps_forbidden ps_set set_num]. split; [exact HK|]. right. split; [reflexivity|lia].
    + destruct (ph_int ph); [discriminate|]. intros H. injection H as <-. split; [apply HI2|]. intros HK. cbn [ps_K ps_forbidden ps_set set_num]. split; [exact HK|]. right. split; [reflexivity|lia].
    + destruct (truthy (ps_K st)) as [kc|] eqn:EK; [|discriminate]. destruct (ph_int ph); [discriminate|]. intros H. injection H as <-. split; [apply HI2|]. discriminate.
Qed.

(** ** What an answer over all the petals says *)
Definition by_petals (rs : list (list nat)) : Prop := covers N rs /\ Forall (fun r => In (wrap r) (pt_routes base)) rs.

Lemma base_index r : In (wrap r) (pt_routes base) -> exists j, (j < length base)%nat /\ nth j (map pt_nodes base) [] = r /\ r <> [].
Proof using All.
  intros H. apply in_map_iff in H. destruct H as (p & Hp & H). destruct (In_nth _ _ (mkpt [] 0) H) as (j & Hj & Ej). exists j. split; [exact Hj|].
  rewrite Forall_forall in Hbase. destruct (ok_nodes eps gurobi feas_relax quicksum N D d C L Heps Hsym Htri HD0 Hd Hd0 Hhonest restricted reduced extended (proj2 (Forall_forall _ _) Hbase) p (Hbase _ H)) as (E1 & _ & E2 & _).
  assert (pt_nodes p = r) by (apply wrap_inj; congruence). split; [|congruence].
  change (@nil nat) with (pt_nodes (mkpt [] 0)). rewrite map_nth. congruence.
Qed.

Lemma nodup_parts (rs : list (list nat)) : NoDup (concat rs) -> (forall r, In r rs -> r <> []) -> NoDup rs.
Proof using Type.
  induction rs as [|r rs IH]; intros H Hne; [constructor|]. cbn in H. constructor.
  - intros Hi. destruct r as [|x r]; [apply (Hne []); [now left|reflexivity]|]. inversion H as [|? ? Hx ?]; subst. apply Hx, in_or_app. right. apply in_concat. exists (x :: r). split; [exact Hi|now left].
  - apply IH; [|intros q Hq; apply Hne; now right]. clear - H. induction r as [|x r IHr]; [exact H|]. inversion H; auto.
Qed.

Lemma by_petals_index rs more : by_petals rs -> exists js, NoDup js /\ (forall j, In j js -> (j < length base)%nat) /\ rs_at (map pt_nodes base ++ more) js = rs.
Proof using All.
  intros [Hc Hf].
  assert (HE : exists js, (forall j, In j js -> (j < length base)%nat) /\ map (fun j => nth j (map pt_nodes base ++ more) []) js = rs /\ forall r, In r rs -> r <> []).
  { clear Hc. induction rs as [|r rs IH]; [exists []; repeat split; intros ? []|]. inversion Hf as [|? ? H1 H2]; subst. destruct (IH H2) as (js & J1 & J2 & J3). destruct (base_index r H1) as (j & B1 & B2 & B3).
    exists (j :: js). split; [intros k [<-|Hk]; auto|]. split; [cbn; rewrite J2, app_nth1, B2 by (rewrite map_length; exact B1); reflexivity|]. intros q [<-|Hq]; auto. }
  destruct HE as (js & J1 & J2 & J3). exists js. split; [|split; [exact J1|exact J2]].
  apply (NoDup_map_inv (fun j => nth j (map pt_nodes base ++ more) [])). rewrite J2. apply nodup_parts; [|exact J3]. apply (Permutation_NoDup (Permutation_sym Hc)), seq_NoDup.
Qed.

Notation prog st := (the_scp base (ps_relaxed st) (ps_forbidden st) (ps_K st)).
Notation nodes_of st x := (map (nat_ (ps_relaxed st)) (map (zidx (length base)) (sel (length base + length (ps_relaxed st)) x))).

Lemma prog_cost st x : Inv st -> objective (prog st) x = routes_cost D (nodes_of st x).
Proof using All.
  intros (I1 & _). exact (pick_cost eps gurobi feas_relax quicksum N D d C L Heps Hsym Htri HD0 Hd Hd0 Hhonest restricted reduced extended Hbase Extended (ps_relaxed st) I1 x).
Qed.

Lemma ext_choice st rs : Inv st -> truthy (ps_K st) = None -> by_petals rs ->
  (exists y, satisfies quicksum N (prog st) y = true /\ objective (prog st) y = routes_cost D rs) \/
  (exists fz, In fz (ps_forbidden st) /\ covers N (map (nat_ (ps_relaxed st)) fz) /\ routes_cost D (map (nat_ (ps_relaxed st)) fz) = routes_cost D rs).
Proof using All.
  intros HI HK Hb. pose proof HI as (I1 & _ & _ & I4 & _). destruct (by_petals_index rs (map pt_nodes (ps_relaxed st)) Hb) as (js & J1 & J2 & J3).
  pose proof (cover_sat eps gurobi feas_relax quicksum N D d C L Heps Hsym Htri HD0 Hd Hd0 Hhonest restricted reduced extended Hbase Extended (ps_relaxed st) I1 (ps_forbidden st) (ps_K st) js HK I4 J1) as HC.
  pose proof (rs_at_nodes eps gurobi feas_relax quicksum N D d C L Heps Hsym Htri HD0 Hd Hd0 Hhonest restricted reduced extended Hbase Extended (ps_relaxed st) I1 js) as HR.
  change (act Extended) with base in HC, HR.
  assert (J2' : forall j, In j js -> (j < length base + length (ps_relaxed st))%nat) by (intros j Hj; specialize (J2 j Hj); lia).
  specialize (HR J2'). rewrite J3 in HR. destruct (HC J2') as [(y & Y1 & Y2)|(fz & F1 & F2)]; [rewrite J3; apply Hb| |].
  - left. exists y. split; [exact Y1|]. rewrite (prog_cost st y HI), HR. apply routes_cost_perm. now do 2 apply Permutation_map.
  - right. exists fz. split; [exact F1|]. assert (HP : Permutation (map (nat_ (ps_relaxed st)) fz) rs) by (rewrite HR; now apply Permutation_map).
    split; [|apply routes_cost_perm, HP]. eapply Permutation_trans; [apply perm_concat, HP|apply Hb].
Qed.

Lemma singles_by : by_petals (star_routes N).
Proof using All.
  split.
  - unfold covers, star_routes. assert (concat (map (fun n => [n]) (seq 1 (N - 1))) = seq 1 (N - 1)) as -> by (induction (seq 1 (N - 1)); cbn; congruence). reflexivity.
  - apply Forall_forall. intros r Hr. unfold star_routes in Hr. apply in_map_iff in Hr. destruct Hr as (n & <- & Hn). apply in_seq in Hn. apply Hsingle. lia.
Qed.

Lemma sat_new st x : Inv st -> satisfies quicksum N (prog st) x = true ->
  covers N (nodes_of st x) /\ decision_petals x base (ps_relaxed st) <> [] /\ ~ In (map snd (decision_petals x base (ps_relaxed st))) (ps_forbidden st).
Proof using All.
  intros HI HS. pose proof HI as (I1 & _ & _ & I4 & _).
  pose proof (sat_covers eps gurobi feas_relax quicksum N D d C L Heps Hsym Htri HD0 Hd Hd0 Hhonest restricted reduced extended Hbase Extended (ps_relaxed st) I1 (ps_forbidden st) (ps_K st) x HS) as HC.
  split; [exact HC|]. split.
  - intros E. pose proof (decision_idx x base (ps_relaxed st)) as EI. rewrite E in EI. cbn in EI. destruct (sel (length base + length (ps_relaxed st)) x) as [|j js] eqn:Es; [|discriminate].
    change (act Extended) with base in HC. rewrite Es in HC. unfold covers in HC. cbn in HC. apply Permutation_nil in HC. destruct (N - 1)%nat eqn:En; [lia|discriminate].
  - rewrite decision_idx. intros Hin. apply andb_prop in HS. destruct HS as [HS _]. apply andb_prop in HS. destruct HS as [_ HS].
    unfold c2 in HS. rewrite forallb_forall in HS.
    set (js := sel (length base + length (ps_relaxed st)) x) in *.
    assert (Hjs : forall j, In j js -> (j < length base + length (ps_relaxed st))%nat) by (intros j Hj; apply filter_In in Hj; destruct Hj as [Hj _]; apply in_range in Hj; lia).
    assert (Hnd : NoDup js) by (apply NoDup_filter, range_nodup).
    specialize (HS js). cbv beta in HS. assert (Hmem : In js (current_combos (length base) (ps_forbidden st))).
    { apply in_flat_map. exists (map (zidx (length base)) js). split; [exact Hin|].
      assert (forallb (fun i => i <? Z.of_nat (length base)) (map (zidx (length base)) js) = true) as ->.
      { apply forallb_forall. intros z Hz. apply in_map_iff in Hz. destruct Hz as (j & <- & _). unfold zidx. destruct (Nat.ltb_spec j (length base)); lia. }
      left. rewrite map_map. rewrite <- (map_id js) at 2. apply map_ext. intros j. exact (nidx_zidx (length base) j). }
    specialize (HS Hmem). apply Z.leb_le in HS. unfold scp_vars in HS. cbn [the_scp scp_sets] in HS. rewrite app_length, !map_length in HS.
    exact (combo_excluded js _ x Hnd Hjs HS (Permutation_refl _)).
Qed.

Lemma ext_answer st l fe : Inv st -> truthy (ps_K st) = None -> solve_set_covering gurobi feas_relax base (ps_relaxed st) (ps_forbidden st) (ps_allow st) (ps_K st) = Answer l fe ->
  (fe = true -> l <> [] /\ ~ In (map snd l) (ps_forbidden st) /\ covers N (map (nat_ (ps_relaxed st)) (map snd l))) /\
  forall rs, by_petals rs -> (fe = true /\ routes_cost D (map (nat_ (ps_relaxed st)) (map snd l)) <= routes_cost D rs) \/
    (exists fz, In fz (ps_forbidden st) /\ covers N (map (nat_ (ps_relaxed st)) fz) /\ routes_cost D (map (nat_ (ps_relaxed st)) fz) = routes_cost D rs).
Proof using All.
  intros HI HK HS. apply solve_spec in HS. pose proof (Hhonest (prog st)) as HH. destruct fe.
  - destruct HS as (x & Ex & ->). rewrite Ex in HH. destruct HH as [H1 H2]. destruct (sat_new st x HI H1) as (S1 & S2 & S3). split; [intros _; rewrite decision_idx in *; auto|].
    intros rs Hb. destruct (ext_choice st rs HI HK Hb) as [(y & Y1 & Y2)|Y]; [left; split; [reflexivity|]|right; exact Y].
    rewrite decision_idx, <- (prog_cost st x HI), <- Y2. apply H2, Y1.
  - split; [discriminate|]. destruct HS as [_ [E|E]]; rewrite E in HH; [|contradiction]. intros rs Hb. destruct (ext_choice st rs HI HK Hb) as [(y & Y1 & _)|Y]; [|right; exact Y]. rewrite HH in Y1. discriminate.
Qed.

(** ** A round that ends the search *)
Lemma step_return st b : Inv st -> uninterrupted gurobi -> uninterrupted feas_relax -> required = None -> iter st = inr (PtReturn b) ->
  exists rs, b = Some (encode rs) /\ serves_all N D d C L eps rs /\
    (minimize_K = false -> truthy (ps_K st) = None -> (ps_cnt st <= limit_all)%nat -> forall rs', by_petals rs' -> routes_cost D rs <= routes_cost D rs').
Proof using All.
  intros HI Hu1 Hu2 Hreq. unfold petal_iter. cbv zeta. destruct (phase1 gurobi feas_relax K restricted reduced extended st) as [ph|] eqn:E1; [|discriminate].
  pose proof (phase1_ok eps gurobi feas_relax quicksum N D d C L Heps Hsym Htri HD0 Hd Hd0 Hhonest restricted reduced extended Hbase K st ph E1) as (P1 & P2 & P3).
  destruct (ph_int ph) eqn:Eint; [exfalso; apply P3; auto|].
  assert (Hforb : ps_feas st = false -> forall fz, In fz (ps_forbidden st) -> ~ covers N (map (nat_ (ps_relaxed st)) fz)).
  { intros Hf. destruct HI as (_ & _ & _ & _ & _ & I6). rewrite Hf in I6. destruct I6 as [I6 _]. rewrite Forall_forall in I6. exact I6. }
  assert (Hbest : ps_feas st = true -> exists rs, ps_best st = Some (encode rs) /\ serves_all N D d C L eps rs /\ ps_f st = Some (routes_cost D rs) /\
    (minimize_K = false -> forall fz, In fz (ps_forbidden st) -> covers N (map (nat_ (ps_relaxed st)) fz) -> routes_cost D rs <= routes_cost D (map (nat_ (ps_relaxed st)) fz))).
  { intros Hf. destruct HI as (_ & _ & _ & _ & _ & I6). rewrite Hf in I6. destruct I6 as (rs & A1 & A2 & A3 & A4). exists rs. do 3 (split; [assumption|]). intros Hm. specialize (A4 Hm). rewrite Forall_forall in A4. exact A4. }
  destruct (match ph_routes ph with [] => false | _ :: _ => negb (seen_inZ (map snd (ph_routes ph)) (ps_forbidden st)) end) eqn:Efound.
  - change (if negb (ph_feas ph) && negb false then let '(rs, ok) := remove_multiserved N D (map fst (ph_routes ph)) in (rs, ok, ps_allow st) else (map fst (ph_routes ph), ph_feas ph, false))
      with (if negb (ph_feas ph) && negb false then let '(rs, ok) := remove_multiserved N D (map fst (ph_routes ph)) in (rs, ok, ps_allow st) else (map fst (ph_routes ph), ph_feas ph, false)).
    assert (Etr : (if negb (ph_feas ph) && negb false then let '(rs, ok) := remove_multiserved N D (map fst (ph_routes ph)) in (rs, ok, ps_allow st) else (map fst (ph_routes ph), ph_feas ph, false)) = treat N D st ph) by (unfold treat; rewrite Eint; reflexivity).
    rewrite Etr. clear Etr.
    assert (Hne : ph_routes ph <> []) by (destruct (ph_routes ph); discriminate).
    assert (Hnew : seen_inZ (map snd (ph_routes ph)) (ps_forbidden st) = false) by (destruct (ph_routes ph); [discriminate|]; now apply negb_true_iff in Efound).
    destruct (found_keeps st ph HI E1 Eint Hne Hnew) as (rs & R1 & R2 & R3 & R4 & R5 & R6 & R7 & R8).
    destruct (treat N D st ph) as [[routes feas] allow] eqn:Et. cbn [fst snd] in *.
    set (sol := match routes2sol (map Some routes) with Some s => s | None => [] end). set (f := objf sol D). set (k := (count_occ Nat.eq_dec sol 0%nat - 1)%nat).
    set (accept := if ps_feas st then feas && better_or_same minimize_K st f k else feas || better_or_same minimize_K st f k).
    match goal with |- match ?e with _ => _ end = _ -> _ => destruct e as [[set' K'] stop] eqn:Enext end.
    destruct (if accept then (Some sol, Some f, k, feas) else (ps_best st, ps_f st, ps_bK st, ps_feas st)) as [[[best bf] bK] bfeas] eqn:Ebest.
    rewrite Hreq in *. cbn [andb]. rewrite !orb_false_r. destruct stop; [|destruct relaxe; [destruct (fold_left _ _ _) as [[? ?] ?]|]; discriminate].
    intros H. injection H as <-. destruct accept eqn:Eacc; [discriminate|]. injection Ebest as <- <- <- <-.
    assert (Hs : ph_set ph <> Restricted) by (intros E; rewrite E in Enext; discriminate).
    set (is_red := match ph_set ph with Reduced => true | _ => false end) in *.
    assert (Hgo : ((negb (ps_feas st) || (ps_cnt st <=? limit_all)%nat) && is_red) || (set_num (ph_set ph) <? set_num (ph_max ph))%nat = false /\
       (truthy (ps_K st) = None \/ ps_feas st = true)).
    { destruct (ph_set ph) eqn:Es; [contradiction| |];
        (destruct (_ || _) in Enext |- *; [discriminate|]; split; [reflexivity|]; destruct (truthy (ps_K st)); [|now left]; right; destruct (ps_feas st); [reflexivity|discriminate]). }
    destruct Hgo as [Hgo1 Hgo2]. apply orb_false_iff in Hgo1. destruct Hgo1 as [Hgo1 _].
    assert (Hext : negb (ps_feas st) || (ps_cnt st <=? limit_all)%nat = true -> ph_set ph = Extended).
    { intros E. rewrite E in Hgo1. cbn in Hgo1. unfold is_red in Hgo1. destruct (ph_set ph); [contradiction|discriminate|reflexivity]. }
    assert (Hfe : ps_feas st = true).
    { destruct (ps_feas st) eqn:Efe; [reflexivity|exfalso]. specialize (Hext eq_refl). destruct Hgo2 as [HK|?]; [|discriminate].
      rewrite Hext in P3. change (act Extended) with base in P3. destruct (ext_answer st _ _ HI HK P3) as [X1 X2].
      assert (ph_feas ph = false).
      { destruct (ph_feas ph) eqn:Ep; [|reflexivity]. destruct (X1 eq_refl) as (_ & _ & X3). destruct (R7 X3) as [X4 _]. unfold accept in Eacc. rewrite X4 in Eacc. discriminate. }
      destruct (X2 _ singles_by) as [[? _]|(fz & F1 & F2 & _)]; [congruence|exact (Hforb eq_refl fz F1 F2)]. }
    destruct (Hbest Hfe) as (rs0 & A1 & A2 & A3 & A4). exists rs0. split; [exact A1|]. split; [exact A2|]. intros Hm HK Hcnt rs' Hb.
    assert (Hx : ph_set ph = Extended) by (apply Hext; apply Nat.leb_le in Hcnt; rewrite Hcnt; apply orb_true_r).
    rewrite Hx in P3. change (act Extended) with base in P3. destruct (ext_answer st _ _ HI HK P3) as [X1 X2].
    destruct (X2 rs' Hb) as [[Hp Hle]|(fz & F1 & F2 & F3)]; [|specialize (A4 Hm fz F1 F2); lia].
    destruct (X1 Hp) as (_ & _ & X3). destruct (R7 X3) as [X4 _]. unfold accept in Eacc. rewrite Hfe, X4 in Eacc. cbn in Eacc.
    destruct (best_case st f k Hm Hfe _ A3) as [_ B]. specialize (B Eacc).
    assert (f = routes_cost D rs). { unfold f, sol. rewrite R1, routes2sol_wraps by exact R2. rewrite objf_path. apply path_cost_encode. }
    rewrite (R8 Hp) in H. lia.
  - destruct (ph_set ph) eqn:Es; [discriminate|discriminate|]. destruct (truthy (ps_K st)) eqn:EK; [discriminate|].
    intros H. injection H as <-. change (act Extended) with base in P3. destruct (ext_answer st _ _ HI EK P3) as [X1 X2].
    assert (Hp : ph_feas ph = false).
    { destruct (ph_feas ph) eqn:Ep; [|reflexivity]. destruct (X1 eq_refl) as (Y1 & Y2 & _). destruct (ph_routes ph); [contradiction|]. apply negb_false_iff, seen_inZ_true in Efound. contradiction. }
    assert (Hfe : ps_feas st = true).
    { destruct (ps_feas st) eqn:Efe; [reflexivity|exfalso]. destruct (X2 _ singles_by) as [[? _]|(fz & F1 & F2 & _)]; [congruence|exact (Hforb eq_refl fz F1 F2)]. }
    destruct (Hbest Hfe) as (rs0 & A1 & A2 & A3 & A4). exists rs0. split; [exact A1|]. split; [exact A2|]. intros Hm _ _ rs' Hb.
    destruct (X2 rs' Hb) as [[? _]|(fz & F1 & F2 & F3)]; [congruence|]. specialize (A4 Hm fz F1 F2). lia.
Qed.
End Loop.
