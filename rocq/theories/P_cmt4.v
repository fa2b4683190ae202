(** * Two phase heuristic: what phase one puts on a route *)
From Verif Require Import Spec Spec_inter Spec_savings Spec_rfcs Spec_tyagi Spec_cmt PyBase M_util M_psavings M_cmt P_base P_psavings P_tyagi P_cmt Spec.
Require Import ZifyBool ZifyNat Lia Sorting.Sorted.

Lemma first_best_first key l : l <> [] -> exists a b, l = a ++ first_best key l :: b /\
  (forall x, In x a -> key x < key (first_best key l)) /\ forall x, In x b -> key x <= key (first_best key l).
Proof.
  destruct l as [|x t]; [congruence|]. intros _. cbn [first_best].
  assert (G : forall t a0 b0 m0, (forall x, In x a0 -> key x < key m0) -> (forall x, In x b0 -> key x <= key m0) ->
     let z := fold_left (fun b y => if key b <? key y then y else b) t m0 in
     exists a b, a0 ++ m0 :: b0 ++ t = a ++ z :: b /\ (forall x, In x a -> key x < key z) /\ forall x, In x b -> key x <= key z).
  { clear. induction t as [|y t IH]; intros a0 b0 m0 Ha Hb; cbn [fold_left].
    - exists a0, b0. rewrite app_nil_r. auto.
    - destruct (key m0 <? key y) eqn:E.
      + destruct (IH (a0 ++ m0 :: b0) [] y) as (a & b & E1 & E2 & E3).
        * intros x Hx. apply in_app_or in Hx as [Hx|[<-|Hx]]; [specialize (Ha x Hx)| |specialize (Hb x Hx)]; lia.
        * intros x [].
        * exists a, b. split; [|auto]. rewrite <- E1. cbn [app]. rewrite <- app_assoc. reflexivity.
      + destruct (IH a0 (b0 ++ [y]) m0) as (a & b & E1 & E2 & E3); [exact Ha|intros x Hx; apply in_app_or in Hx as [Hx|[<-|[]]]; [auto|lia]|].
        exists a, b. split; [|auto]. rewrite <- E1. now rewrite <- app_assoc. }
  exact (G t [] [] x (fun y (H : In y []) => match H with end) (fun y (H : In y []) => match H with end)).
Qed.
Lemma before_filter P order x y : before (filter P order) x y -> before order x y.
Proof.
  intros (a & b & E & Hy). revert a b E Hy. induction order as [|z order IH]; intros a b E Hy; [destruct a; discriminate|].
  cbn [filter] in E. destruct (P z).
  - destruct a as [|w a]; cbn in E; injection E as -> E.
    + exists [], order. split; [reflexivity|]. assert (X : In y (filter P order)) by now rewrite E. now apply filter_In in X.
    + destruct (IH a b E Hy) as (a' & b' & -> & H). exists (w :: a'), b'. auto.
  - destruct (IH a b E Hy) as (a' & b' & -> & H). exists (z :: a'), b'. auto.
Qed.
Lemma filter_filter' {A} (P Q : A -> bool) l : filter P (filter Q l) = filter (fun x => Q x && P x) l.
Proof. induction l as [|x l IH]; [reflexivity|]. cbn. destruct (Q x); cbn; [destruct (P x)|]; now rewrite IH. Qed.

Lemma seed_best D d m order P : filter P order <> [] -> best_seed D d m order (filter P order) (seed_of D d m (filter P order)).
Proof.
  intros H. split; [now apply seed_of_in|]. intros c Hc Hne.
  assert (G : exists a b, filter P order = a ++ seed_of D d m (filter P order) :: b /\
    (forall x, In x a -> seed_key D d m x < seed_key D d m (seed_of D d m (filter P order))) /\ forall x, In x b -> seed_key D d m x <= seed_key D d m (seed_of D d m (filter P order))).
  { destruct m; cbn [seed_of seed_key]; try (now apply first_best_first).
    destruct (filter P order) as [|x t]; [congruence|]. exists [], t. cbn. split; [reflexivity|split; [intros y []|lia]]. }
  destruct G as (a & b & E & Ha & Hb). set (s := seed_of D d m (filter P order)) in *. rewrite E in Hc. apply in_app_or in Hc as [Hc|[Hc|Hc]]; [left; now apply Ha|congruence|].
  specialize (Hb c Hc). destruct (Z_lt_le_dec (seed_key D d m c) (seed_key D d m s)); [now left|right]. split; [lia|]. apply (before_filter P). exists a, b. auto.
Qed.

(** ** Candidates in order *)
Lemma pair_insert_sorted a l : (forall b, In b l -> snd b <> snd a) -> StronglySorted (fun x y => pair_lt x y = true) l ->
  StronglySorted (fun x y => pair_lt x y = true) (pair_insert pair_lt a l).
Proof.
  intros Hd H. induction H as [|b l H IH Hb]; [repeat constructor|]. cbn [pair_insert]. destruct (pair_lt b a) eqn:E.
  - constructor; [apply IH; intros c Hc; apply Hd; now right|]. apply Forall_forall. intros c Hc. apply (Permutation_in _ (pair_insert_perm _ _ _)) in Hc.
    destruct Hc as [<-|Hc]; [exact E|]. rewrite Forall_forall in Hb. now apply Hb.
  - assert (E' : pair_lt a b = true). { specialize (Hd b (or_introl eq_refl)). unfold pair_lt in *. lia. }
    constructor; [now constructor|]. constructor; [exact E'|]. eapply Forall_impl; [|exact Hb]. intros c Hc. cbn beta in Hc. unfold pair_lt in *. lia.
Qed.
Lemma pair_sort_sorted l : NoDup (map snd l) -> StronglySorted (fun x y => pair_lt x y = true) (pair_sort pair_lt l).
Proof.
  induction l as [|a l IH]; intros H; [constructor|]. cbn [map] in H. apply NoDup_cons_iff in H as (H1 & H2). cbn. apply pair_insert_sorted; [|now apply IH].
  intros b Hb E. apply H1. rewrite <- E. apply in_map. apply (Permutation_in _ (pair_sort_perm pair_lt l)). exact Hb.
Qed.
Lemma candidates_sorted D lam s un : NoDup un -> StronglySorted (fun i j => sooner D lam s i j = true) (p1_candidates D lam s un).
Proof.
  intros H. unfold p1_candidates. set (g := fun i => (snd lam * D 0%nat i + fst lam * D i s, i)).
  assert (S : StronglySorted (fun x y => pair_lt x y = true) (pair_sort pair_lt (map g un))) by (apply pair_sort_sorted; rewrite map_map; cbn [snd]; now rewrite map_id).
  assert (F : Forall (fun q => q = g (snd q)) (pair_sort pair_lt (map g un))).
  { apply Forall_forall. intros q Hq. apply (Permutation_in _ (pair_sort_perm _ _)) in Hq. apply in_map_iff in Hq as (i & <- & _). reflexivity. }
  induction S as [|a l S IH Ha]; [constructor|]. inversion F as [|x y F1 F2]; subst. cbn [map]. constructor; [now apply IH|].
  apply Forall_forall. intros j Hj. apply in_map_iff in Hj as (q & <- & Hq). rewrite Forall_forall in Ha, F2. specialize (Ha q Hq). cbn beta in Ha. rewrite F1, (F2 q Hq) in Ha. exact Ha.
Qed.

Section Rule.
Variables (ceps seps : Z) (N : nat) (D : matrix) (d : demands) (C L : limit) (f : tsp).
Hypothesis Hf : solver N D f.
Hypothesis HL : truthy L = None.

(** Those accepted *)
Fixpoint greedy (cands r : list nat) : list nat :=
  match cands with
  | [] => []
  | i :: t => if exceeds C ceps (demand d (r ++ [i])) then greedy t r else i :: greedy t (r ++ [i])
  end.
Lemma greedy_in : forall cands r x, In x (greedy cands r) -> In x cands.
Proof. induction cands as [|i t IH]; intros r x; cbn [greedy]; [tauto|]. destruct (exceeds C ceps (demand d (r ++ [i]))); cbn [In]; intros H; [right; eauto|destruct H; [now left|right; eauto]]. Qed.
Lemma greedy_nodup : forall cands r, NoDup cands -> NoDup (greedy cands r).
Proof.
  induction cands as [|i t IH]; intros r H; cbn [greedy]; [constructor|]. apply NoDup_cons_iff in H as (H1 & H2). destruct (exceeds C ceps (demand d (r ++ [i]))); [auto|].
  constructor; [|auto]. intros X. apply H1. now apply greedy_in in X.
Qed.
Lemma greedy_rule lt : forall cands r, (forall x, lt x x = false) -> (forall x y, lt x y = true -> lt y x = false) -> StronglySorted (fun i j => lt i j = true) cands -> NoDup cands ->
  forall j, In j cands -> (In j (greedy cands r) <-> within C ceps (demand d (r ++ filter (fun i => lt i j) (greedy cands r)) + d j)).
Proof.
  intros cands r Hir Has S. revert r. induction S as [|i t S IH Hi]; intros r Hn j Hj; [destruct Hj|].
  apply NoDup_cons_iff in Hn as (Hni & Hn). cbn [greedy].
  assert (E0 : forall q, filter (fun x => lt x i) (greedy t q) = []).
  { intros q. assert (X : forall x, In x (greedy t q) -> lt x i = false). { intros x Hx. apply greedy_in in Hx. rewrite Forall_forall in Hi. apply Has. now apply Hi. }
    revert X. generalize (greedy t q). induction l as [|y l IHl]; intros X; [reflexivity|]. cbn. rewrite (X y (or_introl eq_refl)). apply IHl. intros x Hx. apply X. now right. }
  destruct (exceeds C ceps (demand d (r ++ [i]))) eqn:E.
  - destruct Hj as [<-|Hj]; [|now apply IH]. rewrite E0, app_nil_r. apply exceeds_not_within in E as (_ & E). rewrite demand_snoc in E.
    split; [intros X; apply greedy_in in X; contradiction|intros X; contradiction].
  - destruct Hj as [<-|Hj].
    + cbn [filter]. rewrite Hir, E0, app_nil_r. apply exceeds_within in E. rewrite demand_snoc in E. split; [intros _; exact E|intros _; now left].
    + assert (Hij : lt i j = true) by (rewrite Forall_forall in Hi; now apply Hi). cbn [filter]. rewrite Hij. cbn [In].
      specialize (IH (r ++ [i]) Hn j Hj). rewrite <- app_assoc in IH. cbn [app] in IH. rewrite <- IH. split; [|tauto]. intros [->|X]; [contradiction|exact X].
Qed.
Lemma fill_greedy : forall cands st r un, rs_route st = 0%nat :: r -> (is_set C = true -> rs_demand st = demand d r) ->
  exists dm c u pts, p1_fill ceps seps D d C L f cands st un =
    (mkrs (0%nat :: r ++ greedy cands r) dm c u, filter (fun x => negb (existsb (Nat.eqb x) (greedy cands r))) un, pts) /\
    (u = rs_updated st \/ u = false).
Proof using HL.
  induction cands as [|i t IH]; intros st r un H1 H2; cbn [p1_fill greedy].
  - rewrite app_nil_r. destruct st as [rt dm c u]. cbn [rs_route] in H1. subst rt. exists dm, c, u, []. split; [|now left]. f_equal. f_equal.
    clear. induction un as [|x l IHl]; [reflexivity|]. cbn. now f_equal.
  - unfold try_insert. assert (EX : exceeds C ceps (rs_demand st + d i) = exceeds C ceps (demand d (r ++ [i]))).
    { unfold exceeds. destruct (truthy C) eqn:E; [|reflexivity]. rewrite H2, demand_snoc; [reflexivity|]. unfold is_set. now rewrite E. }
    rewrite EX. destruct (exceeds C ceps (demand d (r ++ [i]))) eqn:E; [now apply IH|]. cbv zeta.
    assert (EL : forall v, exceeds L seps v = false) by (intros v; unfold exceeds; now rewrite HL). rewrite EL.
    match goal with |- context [p1_fill _ _ _ _ _ _ _ t ?s _] => destruct (IH s (r ++ [i]) (dict_del i un)) as (dm & c & u & pts & I1 & I2) end.
    + cbn [rs_route]. rewrite H1. reflexivity.
    + cbn [rs_demand]. unfold is_set. destruct (truthy C) eqn:Et; [|discriminate]. intros _. rewrite H2, demand_snoc; [reflexivity|]. unfold is_set. now rewrite Et.
    + rewrite I1. exists dm, c, u. eexists. split; [f_equal; f_equal|].
      * rewrite <- app_assoc. reflexivity.
      * unfold dict_del. rewrite filter_filter'. apply filter_ext. intros x. cbn [existsb]. rewrite (Nat.eqb_sym i x). now destruct (Nat.eqb x i).
      * right. cbn [rs_updated] in I2. destruct I2; assumption.
Qed.
Lemma close_perm st r : rs_route st = 0%nat :: r -> r <> [] -> NoDup r -> customers_in N r -> exists r', rs_route (close_route f st) = 0%nat :: r' /\ Permutation r' r.
Proof using Hf.
  intros H1 H2 H3 H4. unfold close_route. destruct (rs_updated st); [exists r; split; [exact H1|reflexivity]|]. rewrite H1.
  destruct (Hf r H2 H3 H4) as (l' & E & P). rewrite E. exists l'. split; [apply removelast_wrap|exact P].
Qed.
Lemma sooner_irrefl lam s x : sooner D lam s x x = false. Proof. unfold sooner. cbv zeta. lia. Qed.
Lemma sooner_asym lam s x y : sooner D lam s x y = true -> sooner D lam s y x = false. Proof. unfold sooner. cbv zeta. lia. Qed.
Lemma filter_perm {A} (P : A -> bool) l l' : Permutation l l' -> Permutation (filter P l) (filter P l').
Proof. induction 1; cbn; repeat match goal with |- context [P ?x] => destruct (P x) end; try constructor; try assumption; try reflexivity; etransitivity; eassumption. Qed.

Lemma loop_filled m lam order : NoDup order -> customers_in N order -> forall k P seeds sol total, (length (filter P order) <= k)%nat ->
  exists ss rs, p1_seeds (p1_loop ceps seps D d C L f m lam k seeds sol total (filter P order)) = seeds ++ ss /\
    p1_sol (p1_loop ceps seps D d C L f m lam k seeds sol total (filter P order)) = sol ++ open_sol rs /\
    Permutation (concat rs) (filter P order) /\ filled D d C ceps m lam order ss rs.
Proof using Hf HL.
  intros Hn Hc. induction k as [|k IH]; intros P seeds sol total Hk.
  - assert (E : filter P order = []) by (destruct (filter P order); [reflexivity|cbn in Hk; lia]). rewrite E. cbn [p1_loop p1_seeds p1_sol].
    exists [], []. rewrite !app_nil_r. repeat split; constructor.
  - destruct (filter P order) as [|x t] eqn:E; [exists [], []; cbn [p1_loop p1_seeds p1_sol]; rewrite !app_nil_r; repeat split; constructor|].
    cbn [p1_loop]. rewrite <- E in *. set (s := seed_of D d m (filter P order)). set (un1 := dict_del s (filter P order)).
    assert (Hsne : filter P order <> []) by (rewrite E; discriminate).
    pose proof (seed_best D d m order P Hsne) as HB. fold s in HB.
    assert (Hnf : NoDup (filter P order)) by now apply NoDup_filter.
    assert (Hn1 : NoDup un1) by now apply dict_del_nodup.
    destruct (fill_greedy (p1_candidates D lam s un1) (new_route D d C s) [s] un1) as (dm & c & u & pts & F1 & F2).
    { reflexivity. } { cbn [new_route rs_demand]. unfold is_set. destruct (truthy C); [|discriminate]. intros _. unfold demand. cbn. lia. }
    rewrite F1. cbv zeta. set (acc := greedy (p1_candidates D lam s un1) [s]) in *.
    assert (Hacc : forall y, In y acc -> In y un1) by (intros y Hy; apply greedy_in in Hy; now apply (Permutation_in _ (candidates_in D lam s un1))).
    assert (Hs1 : ~ In s un1) by (unfold un1; rewrite dict_del_in; tauto).
    assert (Hsa : ~ In s acc) by auto.
    assert (Hnc : NoDup (p1_candidates D lam s un1)) by now apply (Permutation_NoDup (Permutation_sym (candidates_in D lam s un1))).
    assert (Hna : NoDup acc) by now apply greedy_nodup.
    assert (Hin1 : forall y, In y un1 -> In y (filter P order)) by (intros y Hy; apply dict_del_in in Hy; tauto).
    assert (HcP : customers_in N (filter P order)) by (intros y Hy; apply filter_In in Hy as (Hy & _); now apply Hc).
    set (st := mkrs (0%nat :: [s] ++ acc) dm c u). destruct (close_perm st ([s] ++ acc)) as (r' & R1 & R2).
    { reflexivity. } { discriminate. } { cbn [app]. now constructor. } { intros y [<-|Hy]; apply HcP; [apply HB|auto]. }
    assert (EP : filter (fun y => negb (existsb (Nat.eqb y) acc)) un1 = filter (fun y => P y && negb (Nat.eqb s y) && negb (existsb (Nat.eqb y) acc)) order).
    { unfold un1, dict_del. rewrite !filter_filter'. apply filter_ext. intros y. now rewrite andb_assoc. }
    rewrite EP. set (P' := fun y => P y && negb (Nat.eqb s y) && negb (existsb (Nat.eqb y) acc)) in *.
    assert (Hpart : Permutation ([s] ++ acc ++ filter P' order) (filter P order)).
    { apply NoDup_Permutation; [|exact Hnf|].
      - cbn [app]. constructor; [|].
        + intros X. apply in_app_or in X as [X|X]; [auto|]. apply filter_In in X as (_ & X). unfold P' in X. rewrite Nat.eqb_refl in X. destruct (P s); discriminate.
        + assert (G : forall y, In y acc -> ~ In y (filter P' order)).
          { intros y Hy X. apply filter_In in X as (_ & X). unfold P' in X. rewrite (proj2 (existsb_exists (Nat.eqb y) acc)) in X; [lia|]. exists y. split; [exact Hy|apply Nat.eqb_refl]. }
          assert (G2 : NoDup (filter P' order)) by now apply NoDup_filter. revert G G2. generalize (filter P' order). intros qq G G2. clear - G G2 Hna. induction acc as [|y l IHl]; [exact G2|]. apply NoDup_cons_iff in Hna as (A & B). cbn. constructor.
          * intros X. apply in_app_or in X as [X|X]; [auto|]. apply (G y); [now left|exact X].
          * apply IHl; [exact B|]. intros z Hz. apply G. now right.
      - intros y. cbn [app In]. rewrite in_app_iff. split.
        + intros [<-|[Hy|Hy]]; [apply HB|auto|]. apply filter_In in Hy as (Hy & X). apply filter_In. split; [exact Hy|]. unfold P' in X. lia.
        + intros Hy. destruct (Nat.eq_dec s y) as [->|Hne]; [now left|]. destruct (in_dec Nat.eq_dec y acc) as [Ha|Ha]; [right; now left|right; right].
          apply filter_In in Hy as (Hy & X). apply filter_In. split; [exact Hy|]. unfold P'. rewrite X. destruct (existsb (Nat.eqb y) acc) eqn:Ex; [|lia].
          apply existsb_exists in Ex as (z & Hz & Ez). apply Nat.eqb_eq in Ez as ->. contradiction. }
    destruct (IH P' (seeds ++ [s]) (sol ++ rs_route (close_route f st)) (total + rs_cost (close_route f st))) as (ss & rs & I1 & I2 & I3 & I4).
    { apply Permutation_length in Hpart. rewrite !app_length in Hpart. cbn [length] in Hpart. lia. }
    exists (s :: ss), (r' :: rs). cbn [p1_seeds p1_sol]. rewrite I1, I2, R1. split; [now rewrite <- app_assoc|split; [rewrite <- app_assoc; reflexivity|]].
    assert (PU : Permutation (r' ++ concat rs) (filter P order)) by (rewrite R2, I3, <- app_assoc; exact Hpart).
    split; [exact PU|]. cbn [filled]. assert (Hsr : In s r') by (apply (Permutation_in _ (Permutation_sym R2)); now left). split; [exact Hsr|split; [|split; [|exact I4]]].
    + destruct HB as (B1 & B2). split; [apply in_or_app; now left|]. intros y Hy. apply B2. now apply (Permutation_in _ PU).
    + intros j Hj Hne. assert (Hj1 : In j un1) by (apply dict_del_in; split; [now apply (Permutation_in _ PU)|exact Hne]).
      assert (Hjc : In j (p1_candidates D lam s un1)) by now apply (Permutation_in _ (Permutation_sym (candidates_in D lam s un1))).
      pose proof (greedy_rule (sooner D lam s) (p1_candidates D lam s un1) [s] (sooner_irrefl lam s) (sooner_asym lam s) (candidates_sorted D lam s un1 Hn1) Hnc j Hjc) as GR. fold acc in GR.
      assert (EA : In j r' <-> In j acc).
      { split; intros X; [apply (Permutation_in _ R2) in X; destruct X; [congruence|assumption]|apply (Permutation_in _ (Permutation_sym R2)); now right]. }
      rewrite EA, GR. rewrite (demand_perm d _ _ (filter_perm (fun i => Nat.eqb i s || sooner D lam s i j) _ _ R2)). cbn [app filter]. rewrite Nat.eqb_refl. cbn [orb].
      assert (EF : filter (fun i => Nat.eqb i s || sooner D lam s i j) acc = filter (fun i => sooner D lam s i j) acc).
      { apply filter_ext_in. intros y Hy. destruct (Nat.eqb_spec y s) as [->|]; [contradiction|reflexivity]. }
      rewrite EF. reflexivity.
Qed.
Lemma phase_one_filled m lam order : Permutation order (seq 1 (N - 1)) ->
  exists rs, p1_sol (phase_one ceps seps D d C L f m lam order) ++ [0%nat] = encode rs /\ covers N rs /\
    filled D d C ceps m lam order (p1_seeds (phase_one ceps seps D d C L f m lam order)) rs.
Proof using Hf HL.
  intros P. assert (Hn : NoDup order) by (apply (Permutation_NoDup (Permutation_sym P)), seq_NoDup).
  assert (Hc : customers_in N order) by (intros j Hj; apply (Permutation_in _ P) in Hj; apply in_seq in Hj; lia).
  assert (E : filter (fun _ => true) order = order) by (clear; induction order; cbn; congruence).
  destruct (loop_filled m lam order Hn Hc (length order) (fun _ => true) [] [] 0) as (ss & rs & H1 & H2 & H3 & H4); [now rewrite E|].
  rewrite E in *. unfold phase_one. cbn [app] in H1, H2. exists rs. rewrite H1, H2, open_sol_encode. split; [reflexivity|split; [unfold covers; rewrite H3; exact P|exact H4]].
Qed.
End Rule.
