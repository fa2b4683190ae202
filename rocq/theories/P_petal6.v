(** * Proofs about the petal algorithm: one round *)
From Verif Require Import Spec Spec_rfcs Spec_inter Spec_savings Spec_petal PyBase M_util M_cvrp_ops M_routedata M_inter M_ssavings P_driver P_inter P_inter2 M_petal P_petal2 P_petal3 P_petal4 P_petal5 P_base.
From Coq Require Import ZifyBool ZifyNat Lia Arith List Permutation.
Import ListNotations.
Local Open Scope Z_scope.

Lemma routes2sol_wraps rs : rs <> [] -> routes2sol (map Some (map wrap rs)) = Some (encode rs).
Proof.
  intros H. assert (G : forall rs acc, fold_left routes2sol_step (map Some (map wrap rs)) (encode acc) = encode (acc ++ rs)).
  { clear. induction rs as [|r rs IH]; intros acc; cbn [map fold_left]; [now rewrite app_nil_r|].
    replace (routes2sol_step (encode acc) (Some (wrap r))) with (encode (acc ++ [r])); [rewrite IH, <- app_assoc; reflexivity|].
    unfold wrap. cbn [routes2sol_step Nat.eqb]. rewrite app_assoc, last_last. cbn [Nat.eqb]. unfold encode. rewrite flat_map_app. cbn [flat_map]. rewrite app_nil_r. cbn [app]. rewrite <- ?app_assoc. reflexivity. }
  unfold routes2sol. destruct rs as [|r rs]; [easy|]. cbn [map]. f_equal. exact (G (r :: rs) []).
Qed.

Lemma keep_all {A} (f : A -> bool) l : (forall x, In x l -> f x = true) -> filter f l = l.
Proof. induction l as [|x l IH]; intros H; [reflexivity|]. cbn [filter]. rewrite (H x) by (now left). f_equal. apply IH. intros; apply H; now right. Qed.
Lemma perm_concat {A} (l l' : list (list A)) : Permutation l l' -> Permutation (concat l) (concat l').
Proof.
  induction 1; cbn [concat]; [reflexivity|now apply Permutation_app_head| |etransitivity; eassumption].
  rewrite !app_assoc. apply Permutation_app_tail, Permutation_app_comm.
Qed.

Definition the_scp (active relaxed : list petal) (forbidden : list (list Z)) (K : option Z) : scp :=
  mkscp (map pt_nodes active ++ map pt_nodes relaxed) (map pt_cost active ++ map pt_cost relaxed) (current_combos (length active) forbidden) (truthy K).

Lemma solve_spec gurobi feas_relax active relaxed forbidden allow K l fe :
  solve_set_covering gurobi feas_relax active relaxed forbidden allow K = Answer l fe ->
  if fe then exists x, gurobi (the_scp active relaxed forbidden K) = Optimal x /\ l = decision_petals x active relaxed
  else (l = [] \/ exists x, l = decision_petals x active relaxed) /\ (gurobi (the_scp active relaxed forbidden K) = Infeasible \/ gurobi (the_scp active relaxed forbidden K) = OtherStatus).
Proof.
  unfold solve_set_covering. fold (the_scp active relaxed forbidden K). destruct (gurobi _) as [x| | | |] eqn:E; try discriminate.
  - intros H. injection H as <- <-. eauto.
  - destruct allow; [|intros H; injection H as <- <-; auto]. destruct (feas_relax _); try discriminate; intros H; injection H as <- <-; eauto.
  - intros H. injection H as <- <-. auto.
Qed.
Lemma solve_interrupt gurobi feas_relax active relaxed forbidden allow K : uninterrupted gurobi -> uninterrupted feas_relax ->
  solve_set_covering gurobi feas_relax active relaxed forbidden allow K <> SolverInterrupt.
Proof.
  intros H1 H2. unfold solve_set_covering. fold (the_scp active relaxed forbidden K). specialize (H1 (the_scp active relaxed forbidden K)). specialize (H2 (the_scp active relaxed forbidden K)).
  destruct (gurobi _); try congruence. destruct allow; [|discriminate]. destruct (feas_relax _); congruence.
Qed.

Lemma phase1_eq gurobi feas_relax K restricted reduced extended st : phase1 gurobi feas_relax K restricted reduced extended st =
  match ps_set st with
  | Restricted =>
      if match restricted with [] => true | _ => false end then phase2 gurobi feas_relax K restricted reduced extended st [] false (ps_seen st)
      else match solve_set_covering gurobi feas_relax restricted (ps_relaxed st) (ps_forbidden st) (ps_allow st) (ps_K st) with
           | Answer l fe' => phase2 gurobi feas_relax K restricted reduced extended st l fe' (ps_seen st ++ pt_routes restricted)
           | GurobiTimeout => None
           | SolverInterrupt => Some (mkph [] false Restricted (ps_seen st ++ pt_routes restricted) (ps_max st) true)
           end
  | _ => phase2 gurobi feas_relax K restricted reduced extended st [] false (ps_seen st)
  end.
Proof. unfold phase1. destruct (ps_set st); [|reflexivity|reflexivity]. destruct restricted; reflexivity. Qed.

Section Round.
Variable eps : Z.
Variables gurobi feas_relax : scp -> status.
Variable quicksum : list bool -> Z.
Variable N : nat.
Variable D : matrix.
Variable d : demands.
Variables C L : limit.
Hypothesis Heps : 0 <= eps.
Hypothesis Hsym : symmetric D.
Hypothesis Htri : triangle D.
Hypothesis HD0 : D 0%nat 0%nat = 0.
Hypothesis Hd : forall n, 0 <= d n.
Hypothesis Hd0 : d 0%nat = 0.
Hypothesis Hhonest : honest quicksum N gurobi.
Variables restricted reduced extended : list petal.
Let base := restricted ++ reduced ++ extended.
Notation okp := (ok_petal eps N D d C L).
Hypothesis Hbase : Forall okp base.
Notation act := (active_of restricted reduced extended).

Lemma act_prefix s : exists rest, base = act s ++ rest.
Proof using All. destruct s; cbn [active_of]; unfold base; [exists (reduced ++ extended)|exists extended; now rewrite app_assoc|exists []; now rewrite app_nil_r]; reflexivity. Qed.
Lemma act_len s : (length (act s) <= length base)%nat.
Proof using All. destruct (act_prefix s) as (rest & E). rewrite E, app_length. lia. Qed.
Lemma act_ok s : Forall okp (act s).
Proof using All. destruct (act_prefix s) as (rest & E). rewrite E in Hbase. apply Forall_app in Hbase. tauto. Qed.
Lemma act_nth s j p : (j < length (act s))%nat -> nth j (act s) p = nth j base p.
Proof using All. intros H. destruct (act_prefix s) as (rest & E). rewrite E. now rewrite app_nth1 by exact H. Qed.

Lemma ok_nodes p : okp p -> pt_route p = wrap (pt_nodes p) /\ pt_cost p = route_cost D (pt_nodes p) /\ petal_route N D d C L eps (pt_nodes p).
Proof using All.
  intros (r & E1 & E2 & E3). assert (En : pt_nodes p = r); [|rewrite En; auto].
  unfold pt_nodes. rewrite E1. unfold wrap. cbn [filter Nat.eqb negb]. rewrite filter_app. cbn. rewrite app_nil_r. apply keep_all.
  intros x Hx. destruct E3 as (_ & _ & H & _). apply H in Hx. destruct (Nat.eqb_spec x 0); [lia|reflexivity].
Qed.

Definition combo_ok (relaxed : list petal) (fz : list Z) : Prop := NoDup fz /\ forall z, In z fz -> - Z.of_nat (length relaxed) <= z < Z.of_nat (length base).

Lemma nodes_at_more relaxed more z : - Z.of_nat (length relaxed) <= z -> nodes_at base (relaxed ++ more) z = nodes_at base relaxed z.
Proof using All. intros H. unfold nodes_at, pt_at. destruct (Z.leb_spec 0 z); [reflexivity|]. now rewrite app_nth1 by lia. Qed.
Lemma nodes_more relaxed more fz : combo_ok relaxed fz -> map (nodes_at base (relaxed ++ more)) fz = map (nodes_at base relaxed) fz.
Proof using All. intros [_ H]. apply map_ext_in. intros z Hz. apply nodes_at_more. apply H in Hz. lia. Qed.
Lemma combo_more relaxed more fz : combo_ok relaxed fz -> combo_ok (relaxed ++ more) fz.
Proof using All. intros [H1 H2]. split; [exact H1|]. intros z Hz. apply H2 in Hz. rewrite app_length. lia. Qed.

Section Pick.
Variable s : ptl_set.
Variable relaxed : list petal.
Hypothesis Hrel : Forall okp relaxed.
Let a := length (act s).
Let n := (a + length relaxed)%nat.
Let sets := map pt_nodes (act s) ++ map pt_nodes relaxed.

Lemma sets_len : length sets = n.
Proof using All. unfold sets, n, a. rewrite app_length, !map_length. reflexivity. Qed.
Lemma petal_at j : (j < n)%nat -> nth j (act s ++ relaxed) (mkpt [] 0) = pt_at base relaxed (zidx a j).
Proof using All.
  intros H. unfold pt_at, zidx. destruct (Nat.ltb_spec j a) as [Hj|Hj].
  - destruct (Z.leb_spec 0 (Z.of_nat j)); [|lia]. rewrite app_nth1 by exact Hj. rewrite Nat2Z.id. apply act_nth, Hj.
  - destruct (Z.leb_spec 0 (- Z.of_nat (j - a) - 1)); [lia|]. rewrite app_nth2 by exact Hj. f_equal. fold a. lia.
Qed.
Lemma set_at j : (j < n)%nat -> nth j sets [] = nodes_at base relaxed (zidx a j).
Proof using All.
  intros H. unfold nodes_at. rewrite <- petal_at by exact H. unfold sets. rewrite <- map_app. rewrite (nth_indep _ [] (pt_nodes (mkpt [] 0))) by (rewrite map_length, app_length; exact H). apply map_nth.
Qed.
Lemma petal_ok j : (j < n)%nat -> okp (nth j (act s ++ relaxed) (mkpt [] 0)).
Proof using All.
  intros H. assert (HF : Forall okp (act s ++ relaxed)) by (apply Forall_app; split; [apply act_ok|exact Hrel]). rewrite Forall_forall in HF. apply HF, nth_In. rewrite app_length. exact H.
Qed.
Lemma sets_ok q : In q sets -> NoDup q /\ forall i, In i q -> (1 <= i < N)%nat.
Proof using All.
  unfold sets. rewrite <- map_app. intros H. apply in_map_iff in H. destruct H as (p & <- & Hp).
  assert (HF : Forall okp (act s ++ relaxed)) by (apply Forall_app; split; [apply act_ok|exact Hrel]). rewrite Forall_forall in HF. destruct (ok_nodes p (HF p Hp)) as (_ & _ & (_ & H1 & H2 & _)). auto.
Qed.
Lemma rs_at_nodes js : (forall j, In j js -> (j < n)%nat) -> rs_at sets js = map (nodes_at base relaxed) (map (zidx a) js).
Proof using All. intros H. unfold rs_at. rewrite map_map. apply map_ext_in. intros j Hj. apply set_at, H, Hj. Qed.
Lemma sel_lt x j : In j (sel n x) -> (j < n)%nat.
Proof using All. intros H. apply in_sel in H. tauto. Qed.
Lemma pick_combo x : combo_ok relaxed (map (zidx a) (sel n x)).
Proof using All.
  split.
  - apply FinFun.Injective_map_NoDup; [|apply sel_nodup]. intros j j' E. rewrite <- (nidx_zidx a j), <- (nidx_zidx a j'), E. reflexivity.
  - intros z Hz. apply in_map_iff in Hz. destruct Hz as (j & <- & Hj). apply sel_lt in Hj. pose proof (act_len s). unfold n, a in *. unfold zidx. destruct (Nat.ltb_spec j (length (act s))); lia.
Qed.
Lemma pick_routes x : map fst (decision_petals x (act s) relaxed) = map wrap (map (nodes_at base relaxed) (map (zidx a) (sel n x))).
Proof using All.
  rewrite decision_routes. fold a n. rewrite !map_map. apply map_ext_in. intros j Hj. apply sel_lt in Hj. unfold pt_routes.
  rewrite (nth_indep _ [] (pt_route (mkpt [] 0))) by (rewrite map_length, app_length; exact Hj). rewrite map_nth. unfold nodes_at. rewrite <- petal_at by exact Hj. apply ok_nodes, petal_ok, Hj.
Qed.
Lemma pick_petals x q : In q (map (nodes_at base relaxed) (map (zidx a) (sel n x))) -> petal_route N D d C L eps q.
Proof using All.
  intros H. rewrite map_map in H. apply in_map_iff in H. destruct H as (j & <- & Hj). apply sel_lt in Hj. unfold nodes_at. rewrite <- petal_at by exact Hj. apply ok_nodes, petal_ok, Hj.
Qed.
Lemma pick_cost x : objective (mkscp sets (map pt_cost (act s) ++ map pt_cost relaxed) [] None) x = routes_cost D (map (nodes_at base relaxed) (map (zidx a) (sel n x))).
Proof using All.
  unfold objective, scp_vars. cbn [scp_sets scp_costs]. rewrite sets_len. unfold sel.
  assert (G : forall l, (forall j, In j l -> (j < n)%nat) -> sumZ (map (fun j => bz (nth j x false) * nth j (map pt_cost (act s) ++ map pt_cost relaxed) 0) l) =
     routes_cost D (map (nodes_at base relaxed) (map (zidx a) (filter (fun j => nth j x false) l)))).
  { induction l as [|j l IH]; intros H; [reflexivity|]. cbn [map filter]. rewrite sumZ_cons, IH by (intros; apply H; now right).
    assert (Ec : nth j (map pt_cost (act s) ++ map pt_cost relaxed) 0 = route_cost D (nodes_at base relaxed (zidx a j))).
    { assert (Hj : (j < n)%nat) by (apply H; now left). rewrite <- map_app. rewrite (nth_indep _ 0 (pt_cost (mkpt [] 0))) by (rewrite map_length, app_length; exact Hj). rewrite map_nth. unfold nodes_at. rewrite <- petal_at by exact Hj. apply ok_nodes, petal_ok, Hj. }
    rewrite Ec. unfold bz. destruct (nth j x false); [|lia]. unfold routes_cost. cbn [map]. rewrite sumZ_cons. lia. }
  apply G. intros j Hj. apply in_range in Hj. lia.
Qed.

Lemma sat_covers forbidden K x : satisfies quicksum N (the_scp (act s) relaxed forbidden K) x = true -> covers N (map (nodes_at base relaxed) (map (zidx a) (sel n x))).
Proof using All.
  unfold satisfies. rewrite !andb_true_iff. intros [[[_ H] _] _]. apply c1_covers in H; [|exact sets_ok]. cbn [scp_sets the_scp] in H. fold sets in H. rewrite sets_len in H. rewrite rs_at_nodes in H by (intros j; apply sel_lt). exact H.
Qed.

(** A choice of petals that serves everybody meets the constraints unless it is forbidden *)
Lemma cover_sat forbidden K js : truthy K = None -> Forall (combo_ok relaxed) forbidden -> NoDup js -> (forall j, In j js -> (j < n)%nat) -> covers N (rs_at sets js) ->
  (exists y, satisfies quicksum N (the_scp (act s) relaxed forbidden K) y = true /\ Permutation (sel n y) js) \/
  (exists fz, In fz forbidden /\ Permutation fz (map (zidx a) js)).
Proof using All.
  intros HK Hforb Hn Hj Hcov. set (y := map (fun j => mem j js) (range 0 n)).
  assert (Hy : forall j, (j < n)%nat -> nth j y false = mem j js).
  { intros j H. unfold y. rewrite (nth_indep _ false (mem 0 js)) by (rewrite map_length; unfold range; rewrite seq_length; lia). rewrite (map_nth (fun j => mem j js)). unfold range. rewrite seq_nth by lia. reflexivity. }
  assert (HP : Permutation (sel n y) js).
  { apply NoDup_Permutation; [apply sel_nodup|exact Hn|]. intros j. rewrite in_sel. split; [intros [H1 H2]; rewrite Hy in H2 by exact H1; now apply mem_in|]. intros H. split; [auto|]. rewrite Hy by auto. now apply mem_in. }
  destruct (c2 (the_scp (act s) relaxed forbidden K) y) eqn:E2.
  - left. exists y. split; [|exact HP]. unfold satisfies. rewrite E2. unfold c3. cbn [scp_K the_scp]. rewrite HK. rewrite !andb_true_r. apply andb_true_intro. split.
    + apply Nat.eqb_eq. cbn [scp_sets the_scp]. fold sets. rewrite sets_len. unfold y. rewrite map_length. unfold range. rewrite seq_length. lia.
    + apply c1_covers; [exact sets_ok|]. cbn [scp_sets the_scp]. fold sets. rewrite sets_len. unfold covers in *. rewrite <- Hcov. unfold rs_at. apply perm_concat, Permutation_map, HP.
  - right. unfold c2 in E2. cbn [scp_forbid the_scp] in E2. apply Bool.not_true_iff_false in E2. rewrite forallb_forall in E2.
    assert (Hex : exists fc, In fc (current_combos (length (act s)) forbidden) /\ ~ (sumZ (map (fun j => if mem j fc then bz (nth j y false) else - bz (nth j y false)) (range 0 n)) <= Z.of_nat (length fc) - 1)).
    { destruct (existsb (fun fc => negb (sumZ (map (fun j => if mem j fc then bz (nth j y false) else - bz (nth j y false)) (range 0 n)) <=? Z.of_nat (length fc) - 1)) (current_combos (length (act s)) forbidden)) eqn:Ex.
      - apply existsb_exists in Ex. destruct Ex as (fc & H1 & H2). exists fc. split; [exact H1|lia].
      - exfalso. apply E2. intros fc Hfc. unfold scp_vars. cbn [scp_sets the_scp]. fold sets. rewrite sets_len.
        apply Bool.not_false_iff_true. intros X. apply Bool.not_true_iff_false in Ex. apply Ex. apply existsb_exists. exists fc. split; [exact Hfc|]. rewrite X. reflexivity. }
    destruct Hex as (fc & Hfc & Hsum). apply current_in in Hfc. destruct Hfc as (fz & Hfz & Hz & ->). fold a in Hz, Hsum. exists fz. split; [exact Hfz|].
    rewrite Forall_forall in Hforb. destruct (Hforb fz Hfz) as [F1 F2].
    destruct (combo_choice (map (nidx a) fz) n y) as [H|H]; [| |contradiction|].
    + assert (G : forall l, NoDup l -> (forall z, In z l -> z < Z.of_nat a) -> NoDup (map (nidx a) l)); [|apply G; assumption].
      clear. induction l as [|z l IH]; intros Hn Hz; [constructor|]. inversion Hn; subst. cbn [map]. constructor; [|apply IH; [assumption|intros; apply Hz; now right]].
      intros X. apply in_map_iff in X. destruct X as (z' & E & Hz'). apply H1. rewrite <- (zidx_nidx a z) by (apply Hz; now left). rewrite <- E, zidx_nidx by (apply Hz; now right). exact Hz'.
    + intros j Hj'. apply in_map_iff in Hj'. destruct Hj' as (z & <- & Hz'). specialize (F2 z Hz'). specialize (Hz z Hz'). unfold nidx, n. destruct (Z.leb_spec 0 z); lia.
    + assert (Permutation (map (nidx a) fz) js) by (rewrite <- H; exact HP). rewrite <- H0, map_map. rewrite (map_ext_in _ (fun z => z)); [rewrite map_id; reflexivity|].
      intros z Hz'. apply zidx_nidx. apply Hz, Hz'.
Qed.
End Pick.

(** ** The set covering phase *)
Variable K : option Z.
Notation solve s st := (solve_set_covering gurobi feas_relax (act s) (ps_relaxed st) (ps_forbidden st) (ps_allow st) (ps_K st)).

Definition phase_ok (st : ptst) (ph : phase) : Prop :=
  (set_num (ps_set st) <= set_num (ph_set ph))%nat /\ incl (ps_seen st) (ph_seen ph) /\
  (if ph_int ph then (truthy K = None -> ph_routes ph = []) /\ ~ (uninterrupted gurobi /\ uninterrupted feas_relax)
   else solve (ph_set ph) st = Answer (ph_routes ph) (ph_feas ph)).

Lemma solve_not_int s st : solve s st = SolverInterrupt -> ~ (uninterrupted gurobi /\ uninterrupted feas_relax).
Proof using All. intros H [H1 H2]. exact (solve_interrupt gurobi feas_relax _ _ _ _ _ H1 H2 H). Qed.

Lemma phase3_ok st r fe s seen ph : (set_num (ps_set st) <= set_num s)%nat -> incl (ps_seen st) seen ->
  match s with Extended => r = [] | _ => r <> [] -> solve s st = Answer r fe end ->
  phase3 gurobi feas_relax K restricted reduced extended st r fe s seen = Some ph -> phase_ok st ph.
Proof using All.
  intros H1 H2 H3. unfold phase3. destruct (_ || _ || _) eqn:E.
  - change (restricted ++ reduced ++ extended) with (act Extended). destruct (solve Extended st) as [l fe'| |] eqn:Es; [| discriminate|]; intros H; injection H as <-; (split; [|split]); cbn [ph_set ph_seen ph_int ph_routes ph_feas set_num].
    + destruct (ps_set st); cbn; lia.
    + apply incl_appl, H2.
    + exact Es.
    + destruct (ps_set st); cbn; lia.
    + apply incl_appl, H2.
    + split; [|exact (solve_not_int Extended st Es)]. intros HK. rewrite HK in E. rewrite orb_false_r in E. destruct r; [reflexivity|]. destruct s; discriminate.
  - intros H. injection H as <-. split; [exact H1|]. split; [exact H2|]. cbn [ph_set ph_seen ph_int ph_routes ph_feas]. destruct r as [|x r]; [discriminate|]. destruct s; [| |rewrite ?orb_true_r in E; discriminate]; apply H3; discriminate.
Qed.

Lemma phase2_ok st r fe seen ph : incl (ps_seen st) seen ->
  match ps_set st with Restricted => r <> [] -> solve Restricted st = Answer r fe | _ => r = [] end ->
  phase2 gurobi feas_relax K restricted reduced extended st r fe seen = Some ph -> phase_ok st ph.
Proof using All.
  intros H2 H3. unfold phase2. destruct (match ps_set st with Restricted => match r with [] => true | _ => false end | Reduced => true | Extended => false end) eqn:E.
  - assert (Hr : r = [] /\ (set_num (ps_set st) <= 2)%nat). { destruct (ps_set st); [destruct r; [split; [reflexivity|cbn; lia]|discriminate]|split; [exact H3|cbn; lia]|discriminate]. }
    destruct Hr as [-> Hs]. destruct (solve Reduced st) as [l fe'| |] eqn:Es; [|discriminate|].
    + apply phase3_ok; [exact Hs|apply incl_appl, H2|]. intros _. exact Es.
    + intros H. injection H as <-. split; [exact Hs|]. split; [apply incl_appl, H2|]. cbn [ph_int ph_routes]. split; [reflexivity|exact (solve_not_int Reduced st Es)].
  - apply phase3_ok; [lia|exact H2|]. destruct (ps_set st); [exact H3|discriminate|exact H3].
Qed.

Lemma phase1_ok st ph : phase1 gurobi feas_relax K restricted reduced extended st = Some ph -> phase_ok st ph.
Proof using All.
  rewrite phase1_eq. destruct (ps_set st) eqn:Es; [destruct (match restricted with [] => true | _ => false end)|..].
  - apply phase2_ok; [apply incl_refl|]. rewrite Es. easy.
  - change (solve_set_covering gurobi feas_relax restricted (ps_relaxed st) (ps_forbidden st) (ps_allow st) (ps_K st)) with (solve Restricted st). destruct (solve Restricted st) as [l fe'| |] eqn:Ev; [|discriminate|].
    + apply phase2_ok; [apply incl_appl, incl_refl|]. rewrite Es. intros _. exact Ev.
    + intros H. injection H as <-. split; [rewrite Es; cbn; lia|]. split; [apply incl_appl, incl_refl|]. cbn [ph_int ph_routes]. split; [reflexivity|exact (solve_not_int Restricted st Ev)].
  - apply phase2_ok; [apply incl_refl|]. now rewrite Es.
  - apply phase2_ok; [apply incl_refl|]. now rewrite Es.
Qed.

(** ** The chosen petals *)
Definition treat (st : ptst) (ph : phase) : list (list nat) * bool * bool :=
  if negb (ph_feas ph) && negb (ph_int ph) then let '(rs, ok) := remove_multiserved N D (map fst (ph_routes ph)) in (rs, ok, ps_allow st)
  else (map fst (ph_routes ph), ph_feas ph, false).

Lemma chosen_ok st ph : (1 <= N)%nat -> Forall okp (ps_relaxed st) -> phase1 gurobi feas_relax K restricted reduced extended st = Some ph -> ph_int ph = false -> ph_routes ph <> [] ->
  exists rs, fst (fst (treat st ph)) = map wrap rs /\ rs <> [] /\ serves_some N D d C L eps rs /\ combo_ok (ps_relaxed st) (map snd (ph_routes ph)) /\
    (snd (fst (treat st ph)) = true -> serves_all N D d C L eps rs) /\
    (covers N (map (nodes_at base (ps_relaxed st)) (map snd (ph_routes ph))) -> snd (fst (treat st ph)) = true /\ routes_cost D rs <= routes_cost D (map (nodes_at base (ps_relaxed st)) (map snd (ph_routes ph)))) /\
    (ph_feas ph = true -> routes_cost D rs = routes_cost D (map (nodes_at base (ps_relaxed st)) (map snd (ph_routes ph)))).
Proof using All.
  intros HN Hrel E1 Hint Hne. pose proof (phase1_ok st ph E1) as (_ & _ & HS). rewrite Hint in HS. apply solve_spec in HS.
  set (s := ph_set ph) in *. unfold treat. rewrite Hint, andb_true_r.
  assert (Hx : exists x, ph_routes ph = decision_petals x (act s) (ps_relaxed st) /\ (ph_feas ph = true -> gurobi (the_scp (act s) (ps_relaxed st) (ps_forbidden st) (ps_K st)) = Optimal x)).
  { destruct (ph_feas ph); [destruct HS as (x & H1 & H2); eauto|]. destruct HS as [[H|(x & H)] _]; [contradiction|]. exists x. split; [exact H|discriminate]. }
  destruct Hx as (x & Ex & Hopt). clear HS.
  set (js := sel (length (act s) + length (ps_relaxed st)) x) in *. set (qs := map (nodes_at base (ps_relaxed st)) (map (zidx (length (act s))) js)).
  assert (Eidx : map snd (ph_routes ph) = map (zidx (length (act s))) js) by (rewrite Ex; apply decision_idx).
  assert (Erts : map fst (ph_routes ph) = map wrap qs) by (rewrite Ex; apply (pick_routes s (ps_relaxed st) Hrel x)).
  assert (Hq : forall q, In q qs -> petal_route N D d C L eps q) by (intros q; apply (pick_petals s (ps_relaxed st) Hrel x)).
  assert (Hqn : qs <> []). { intros E. apply Hne. apply (f_equal (@length _)) in Erts. rewrite E in Erts. destruct (ph_routes ph); [reflexivity|discriminate]. }
  rewrite Eidx, Erts. fold qs. clear Eidx Erts.
  assert (HQN : Forall (@NoDup nat) qs) by (apply Forall_forall; intros q X; apply Hq, X).
  assert (HQR : forall i, In i (concat qs) -> (1 <= i < N)%nat) by (intros i X; apply in_concat in X; destruct X as (q & X1 & X2); apply (Hq q X1), X2).
  assert (HQF : Forall (feasible D d C L eps eps) qs) by (apply Forall_forall; intros q X; apply Hq, X).
  pose proof (pick_combo s (ps_relaxed st) Hrel x) as HC. fold js in HC.
  destruct (ph_feas ph) eqn:Ef; cbn [negb fst snd].
  - specialize (Hopt eq_refl). pose proof (Hhonest (the_scp (act s) (ps_relaxed st) (ps_forbidden st) (ps_K st))) as HH. rewrite Hopt in HH. destruct HH as [Hsat _].
    pose proof (sat_covers s (ps_relaxed st) Hrel _ _ x Hsat) as Hcov. fold js qs in Hcov.
    exists qs. split; [reflexivity|]. split; [exact Hqn|]. split; [split; [apply (Permutation_NoDup (Permutation_sym Hcov)), seq_NoDup|split; [exact HQR|exact HQF]]|]. split; [exact HC|].
    split; [intros _; split; [exact Hcov|exact HQF]|]. split; [intros _; split; [reflexivity|lia]|reflexivity].
  - destruct (remove_ok eps N D d C L Htri Hd qs HQN HQR HQF) as (rs & ok & R1 & R2 & R3 & R4 & R5 & R6 & R7). rewrite R1. cbn [fst snd].
    exists rs. split; [reflexivity|]. split; [intros ->; destruct qs; [easy|discriminate]|]. split; [exact R2|]. split; [exact HC|]. split; [exact R6|]. split; [|discriminate].
    intros Hcov. split; [|exact R5]. apply R7; [exact HN|]. intros i Hi. apply (Permutation_in _ (Permutation_sym Hcov)), in_seq. lia.
Qed.

(** ** New relaxed petals *)
Lemma add_relaxed_ok rds : Forall (good eps N D d C L) rds -> forall seen relaxed cnt, Forall okp relaxed -> NoDup (pt_routes relaxed) -> incl (pt_routes relaxed) seen ->
  exists seen' more cnt', fold_left add_relaxed rds (seen, relaxed, cnt) = (seen', relaxed ++ more, cnt') /\ Forall okp (relaxed ++ more) /\ NoDup (pt_routes (relaxed ++ more)) /\ incl (pt_routes (relaxed ++ more)) seen'.
Proof using All.
  induction 1 as [|rd rds (q & (Q1 & Q2 & Q3) & Q4 & Q5 & Q6) HF IH]; intros seen relaxed cnt Hok Hnd Hin.
  - exists seen, [], cnt. rewrite app_nil_r. auto.
  - cbn [fold_left]. unfold add_relaxed at 2. rewrite Q1. destruct ((2 <? length (rd_normalize (wrap q)))%nat && negb (seen_in (rd_normalize (wrap q)) seen)) eqn:E; [|apply IH; assumption].
    apply andb_prop in E. destruct E as [E1 E2]. set (p := mkpt (rd_normalize (wrap q)) (rd_cost rd)).
    assert (Hp : okp p).
    { assert (Hpq : q <> [] -> petal_route N D d C L eps q) by (intros; repeat split; auto; apply Q5 || apply Q6; auto). 
      assert (Hq : q <> []). { intros ->. cbn in E1. discriminate. } specialize (Hpq Hq). unfold p. destruct (normalize_wrap q) as [En|En]; rewrite En.
      - exists q. split; [reflexivity|]. split; [exact Q2|exact Hpq].
      - exists (rev q). split; [reflexivity|]. split; [cbn [pt_cost]; rewrite route_cost_rev by exact Hsym; exact Q2|]. apply petal_route_rev; assumption. }
    assert (Hnew : ~ In (pt_route p) seen). { intros X. apply seen_in_true in X. change (pt_route p) with (rd_normalize (wrap q)) in X. rewrite X in E2. discriminate. }
    destruct (IH (seen ++ [rd_normalize (wrap q)]) (relaxed ++ [p]) (S cnt)) as (seen' & more & cnt' & A1 & A2 & A3 & A4).
    + apply Forall_app. split; [exact Hok|]. constructor; [exact Hp|constructor].
    + unfold pt_routes in *. rewrite map_app. cbn [map]. apply NoDup_app_intro; [exact Hnd|repeat constructor; easy|]. intros y Y [<-|[]]. apply Hnew, Hin, Y.
    + unfold pt_routes in *. rewrite map_app. intros y Y. apply in_app_or in Y. apply in_or_app. destruct Y as [Y|Y]; [left; apply Hin, Y|right; exact Y].
    + rewrite <- app_assoc in *. exists seen', ([p] ++ more), cnt'. auto.
Qed.
End Round.
