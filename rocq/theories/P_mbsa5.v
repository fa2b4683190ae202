(** * Matching based savings: what is returned when interrupted *)
From Verif Require Import Spec Spec_inter Spec_savings Spec_rfcs Spec_mbsa PyBase M_mbsa P_base P_inter P_mbsa P_mbsa2 P_mbsa3.
From Verif Require P_driver P_psavings.
Require Import Sorting.Sorted ZifyBool ZifyNat Lia.
Notation asc := (StronglySorted lt).

Lemma sv_insert_in a b l : In a (sv_insert b l) <-> a = b \/ In a l.
Proof. induction l as [|c l IH]; simpl; [firstorder|]. destruct (sv_lt b c); simpl; rewrite ?IH; firstorder. Qed.
Lemma sv_sort_in a l : In a (sv_sort l) <-> In a l.
Proof. unfold sv_sort. induction l as [|b l IH]; simpl; [tauto|]. rewrite sv_insert_in, IH. firstorder. Qed.

(** ** Entries *)
Definition nodes_of (es : list entry) : list nodeset := flat_map (fun e => match e with Nodes s => [s] | MergedInto _ => [] end) es.
Definition entry_at (es : list entry) (i : nat) : entry := nth i es (MergedInto 0).
Definition merged (i j : nat) (u : nodeset) (es : list entry) : list entry := set_nth j (MergedInto i) (set_nth i (Nodes u) es).

Lemma nodes_of_map l : nodes_of (map Nodes l) = l.
Proof. induction l; simpl; congruence. Qed.
Lemma nodes_of_app a b : nodes_of (a ++ b) = nodes_of a ++ nodes_of b.
Proof. unfold nodes_of. now rewrite flat_map_app. Qed.
Lemma nodes_of_perm a b : Permutation a b -> Permutation (nodes_of a) (nodes_of b).
Proof. intros H. unfold nodes_of. induction H; simpl; [constructor|now apply Permutation_app_head| |etransitivity; eassumption].
  destruct x, y; simpl; try reflexivity. constructor.
Qed.
Lemma merged_length i j u es : length (merged i j u es) = length es.
Proof. unfold merged. now rewrite !P_driver.set_nth_length. Qed.
Lemma merged_nodes i j u es si sj : i <> j -> (i < length es)%nat -> (j < length es)%nat -> entry_at es i = Nodes si -> entry_at es j = Nodes sj ->
  exists rest, Permutation (nodes_of es) (si :: sj :: rest) /\ Permutation (nodes_of (merged i j u es)) (u :: rest).
Proof.
  intros Hne Hi Hj Ei Ej. exists (nodes_of (del_nth (phi j i) (del_nth j es))). split.
  - rewrite (nodes_of_perm _ _ (pair_perm (MergedInto 0) es i j Hne Hi Hj)). unfold entry_at in *. rewrite Ei, Ej. reflexivity.
  - set (es' := set_nth i (Nodes u) es).
    assert (L' : length es' = length es) by apply P_driver.set_nth_length.
    unfold merged. fold es'. rewrite (nodes_of_perm _ _ (set_nth_perm (MergedInto i) j es' ltac:(lia))). simpl.
    assert (E : del_nth j es' = set_nth (phi j i) (Nodes u) (del_nth j es)).
    { apply (nth_ext _ _ (MergedInto 0) (MergedInto 0)).
      - rewrite P_driver.set_nth_length, !del_nth_length by lia. now rewrite L'.
      - intros k Hk. rewrite del_nth_length in Hk by lia. destruct (phi_onto j k (length es') Hk ltac:(lia)) as (k0 & K1 & K2 & <-).
        rewrite del_nth_nth by assumption. destruct (Nat.eq_dec k0 i) as [->|Hn].
        + rewrite P_driver.set_nth_same by (rewrite del_nth_length by lia; apply phi_lt; lia). unfold es'. apply P_driver.set_nth_same. lia.
        + rewrite P_driver.set_nth_other by (intros X; apply phi_inj in X; auto). rewrite del_nth_nth by assumption. unfold es'. apply P_driver.set_nth_other. auto. }
    rewrite E. rewrite (nodes_of_perm _ _ (set_nth_perm (Nodes u) (phi j i) (del_nth j es) ltac:(rewrite del_nth_length by lia; apply phi_lt; lia))). reflexivity.
Qed.
Lemma merged_at_i i j u es : i <> j -> (i < length es)%nat -> entry_at (merged i j u es) i = Nodes u.
Proof. intros Hne Hi. unfold entry_at, merged. rewrite P_driver.set_nth_other by auto. now apply P_driver.set_nth_same. Qed.
Lemma merged_at_j i j u es : (j < length es)%nat -> entry_at (merged i j u es) j = MergedInto i.
Proof. intros Hj. unfold entry_at, merged. apply P_driver.set_nth_same. now rewrite P_driver.set_nth_length. Qed.
Lemma merged_at_other i j u es k : k <> i -> k <> j -> entry_at (merged i j u es) k = entry_at es k.
Proof. intros Hi Hj. unfold entry_at, merged. rewrite !P_driver.set_nth_other by auto. reflexivity. Qed.

(** The references lead to a set: each was made later than those that lead to it. *)
Definition forest (es : list entry) : Prop :=
  exists (T : nat -> nat) t, (t + length (nodes_of es) = length es)%nat /\
    forall i i', (i < length es)%nat -> entry_at es i = MergedInto i' ->
      (i' < length es)%nat /\ (T i < t)%nat /\ forall i'', entry_at es i' = MergedInto i'' -> (T i < T i')%nat.

Lemma forest_start l : forest (map Nodes l).
Proof.
  exists (fun _ => 0%nat), 0%nat. rewrite nodes_of_map, map_length. split; [reflexivity|]. intros i i' Hi E. exfalso. unfold entry_at in E.
  rewrite (nth_indep _ _ (Nodes [])) in E by now rewrite map_length. rewrite map_nth in E. discriminate.
Qed.
Lemma forest_merged i j u es si sj : i <> j -> (i < length es)%nat -> (j < length es)%nat -> entry_at es i = Nodes si -> entry_at es j = Nodes sj ->
  forest es -> forest (merged i j u es).
Proof.
  intros Hne Hi Hj Ei Ej (T & t & Ht & HT). exists (fun x => if Nat.eqb x j then t else T x), (S t). rewrite merged_length. split.
  - destruct (merged_nodes i j u es si sj Hne Hi Hj Ei Ej) as (rest & P1 & P2). apply Permutation_length in P1, P2. simpl in P1, P2. lia.
  - intros k k' Hk E. destruct (Nat.eq_dec k j) as [->|Nj].
    + rewrite merged_at_j in E by assumption. injection E as <-. rewrite Nat.eqb_refl. split; [assumption|]. split; [lia|].
      intros i'' E. rewrite merged_at_i in E by assumption. discriminate.
    + destruct (Nat.eq_dec k i) as [->|Ni]; [rewrite merged_at_i in E by assumption; discriminate|].
      rewrite merged_at_other in E by assumption. destruct (HT k k' Hk E) as (A & B & G). destruct (Nat.eqb_spec k j); [congruence|].
      split; [assumption|]. split; [lia|]. intros i'' E'. destruct (Nat.eqb_spec k' j) as [->|Nj']; [assumption|].
      destruct (Nat.eq_dec k' i) as [->|Ni']; [rewrite merged_at_i in E' by assumption; discriminate|].
      rewrite merged_at_other in E' by assumption. now apply (G i'').
Qed.
Lemma follow_set es T t :
  (forall i i', (i < length es)%nat -> entry_at es i = MergedInto i' ->
      (i' < length es)%nat /\ (T i < t)%nat /\ forall i'', entry_at es i' = MergedInto i'' -> (T i < T i')%nat) ->
  forall fuel i, (i < length es)%nat -> (0 < fuel)%nat -> (forall i', entry_at es i = MergedInto i' -> (t - T i < fuel)%nat) ->
  exists r s, follow fuel es i = Some r /\ (r < length es)%nat /\ entry_at es r = Nodes s.
Proof.
  intros HT. induction fuel as [|fuel IH]; intros i Hi H0 Hf; [lia|]. simpl.
  rewrite (nth_indep _ (Nodes []) (MergedInto 0)) by assumption. change (nth i es (MergedInto 0)) with (entry_at es i).
  destruct (entry_at es i) as [s|i'] eqn:E; [now exists i, s|]. destruct (HT i i' Hi E) as (A & B & G). specialize (Hf i' eq_refl).
  apply IH; [assumption|lia|]. intros i'' E'. specialize (G i'' E'). destruct (HT i' i'' A E') as (_ & B' & _). lia.
Qed.
Lemma follow_ok es i : forest es -> (i < length es)%nat -> exists r s, follow (S (length es)) es i = Some r /\ (r < length es)%nat /\ entry_at es r = Nodes s.
Proof. intros (T & t & Ht & HT) Hi. apply (follow_set es T t HT); [assumption|lia|]. intros i' E. lia. Qed.

Section Greedy.
Variables (ceps seps : Z) (N : nat) (D : matrix) (d : demands) (C L : limit) (W : Z) (f : tsp).
Hypothesis Hd0 : d 0%nat = 0.
Hypothesis Hsym : symmetric D.
Hypothesis Hsol : solver N D f.

Definition routed (c : tcache) (s : nodeset) : Prop :=
  exists r, lookup c s = Some (wrap r, route_cost D r) /\ Permutation r s /\ within C ceps (demand d s) /\ within L seps (route_cost D r).
Definition gok (g : gst) : Prop := sets_ok N (nodes_of (g_sets g)) /\ Forall (routed (g_cache g)) (nodes_of (g_sets g)) /\ forest (g_sets g).

Lemma in_nodes es i s : (i < length es)%nat -> entry_at es i = Nodes s -> In s (nodes_of es).
Proof. intros Hi E. unfold nodes_of. apply in_flat_map. exists (Nodes s). split; [|now left]. rewrite <- E. unfold entry_at. now apply nth_In. Qed.

(** Replacing two sets by their union *)
Lemma union_ok sets si sj rest sets' : sets_ok N sets -> Permutation sets (si :: sj :: rest) -> Permutation sets' (union si sj :: rest) ->
  sets_ok N sets' /\ Permutation (union si sj) (si ++ sj).
Proof.
  intros (H1 & H2 & H3) HQ HP. pose proof (Forall_perm' _ _ _ HQ H2) as F2. pose proof (Forall_perm' _ _ _ HQ H3) as F3.
  inversion F2 as [|? ? F2i F2']; subst. inversion F2' as [|? ? F2j F2'']; subst. inversion F3 as [|? ? F3i F3']; subst. inversion F3' as [|? ? _ F3'']; subst.
  assert (HN : NoDup (si ++ sj)).
  { assert (X : NoDup (concat (si :: sj :: rest))) by (eapply Permutation_NoDup; [|apply seq_NoDup]; rewrite <- (concat_perm _ _ HQ); apply Permutation_sym; exact H1).
    simpl in X. rewrite app_assoc in X. now apply nodup_app_split in X. }
  destruct (union_joined _ _ F2j HN) as [HU HA]. split; [|exact HU]. split; [|split].
  - rewrite (concat_perm _ _ HP), <- H1, (concat_perm _ _ HQ). simpl. rewrite HU. now rewrite <- app_assoc.
  - eapply Forall_perm'; [apply Permutation_sym; exact HP|]. now constructor.
  - eapply Forall_perm'; [apply Permutation_sym; exact HP|]. constructor; [|assumption].
    intros E. rewrite E in HU. destruct si as [|x s]; [congruence|]. simpl in HU. now apply Permutation_nil_cons in HU.
Qed.

(** ** The first pass *)
Variables (sets : list nodeset) (c : tcache) (sv : savings).
Hypothesis Hsets : sets_ok N sets.
Hypothesis Hcache : cache_ok f c.
Hypothesis Hkeys : forall w i j, In (w, (i, j)) sv ->
    i <> j /\ (i < length sets)%nat /\ (j < length sets)%nat /\
    w = wt ceps seps d C L f W (set_at sets i) (set_at sets j) /\ priced ceps seps d C L f c (set_at sets i) (set_at sets j).

Lemma first_pass_ok : forall l jd g, incl l sv -> g_cache g = c -> length (g_sets g) = length sets -> gok g ->
  (forall k, (k < length sets)%nat -> ~ In k jd -> entry_at (g_sets g) k = Nodes (set_at sets k)) ->
  gok (first_pass seps D L W jd l g) /\ length (g_sets (first_pass seps D L W jd l g)) = length sets.
Proof.
  induction l as [|[sa [i j]] l IH]; intros jd g Hin Hc Hlen Hg Hun; simpl; [now split|].
  assert (Hin' : incl l sv) by (intros x Hx; apply Hin; now right).
  destruct (Z.eqb_spec sa W) as [|HW]; [now split|].
  destruct (existsb (Nat.eqb i) jd) eqn:Xi; simpl; [now apply IH|]. destruct (existsb (Nat.eqb j) jd) eqn:Xj; simpl; [now apply IH|].
  assert (Ni : ~ In i jd) by (intros X; assert (existsb (Nat.eqb i) jd = true) by (apply existsb_exists; exists i; split; [assumption|apply Nat.eqb_refl]); congruence).
  assert (Nj : ~ In j jd) by (intros X; assert (existsb (Nat.eqb j) jd = true) by (apply existsb_exists; exists j; split; [assumption|apply Nat.eqb_refl]); congruence).
  destruct (Hkeys sa i j (Hin _ (or_introl eq_refl))) as (Hne & Hi & Hj & Ew & Hpr).
  pose proof (Hun i Hi Ni) as Ei. pose proof (Hun j Hj Nj) as Ej.
  change (nth i (g_sets g) (MergedInto 0)) with (entry_at (g_sets g) i). change (nth j (g_sets g) (MergedInto 0)) with (entry_at (g_sets g) j). rewrite Ei, Ej.
  assert (HW' : wt ceps seps d C L f W (set_at sets i) (set_at sets j) <> W) by congruence.
  assert (Hf : cap_fits ceps d C (set_at sets i) (set_at sets j) && len_fits seps L f (set_at sets i) (set_at sets j) = true).
  { unfold wt in HW'. destruct (_ && _); [reflexivity|congruence]. }
  destruct Hpr as [Hpr _]. apply andb_prop in Hf. specialize (Hpr (proj1 Hf)). rewrite Hc.
  destruct (lookup c (union (set_at sets i) (set_at sets j))) as [e|] eqn:El; [|now elim Hpr].
  apply IH; [assumption|reflexivity| | |].
  - simpl. fold (merged i j (union (set_at sets i) (set_at sets j)) (g_sets g)). now rewrite merged_length.
  - destruct Hg as (G1 & G2 & G3). simpl. fold (merged i j (union (set_at sets i) (set_at sets j)) (g_sets g)).
    destruct (merged_nodes i j (union (set_at sets i) (set_at sets j)) (g_sets g) _ _ Hne ltac:(lia) ltac:(lia) Ei Ej) as (rest & P1 & P2).
    destruct (union_ok _ _ _ _ _ G1 P1 P2) as [O1 O2].
    split; [exact O1|]. split; [|simpl; eapply forest_merged; try eassumption; lia]. simpl.
    pose proof (Forall_perm' _ _ _ P1 G2) as F. inversion F as [|? ? Fi F']; subst. inversion F' as [|? ? Fj F'']; subst.
    eapply Forall_perm'; [apply Permutation_sym; exact P2|]. constructor; [|assumption].
    assert (Hu : In (union (set_at sets i) (set_at sets j)) (nodes_of (merged i j (union (set_at sets i) (set_at sets j)) (g_sets g)))) by (eapply Permutation_in; [apply Permutation_sym; exact P2|now left]).
    destruct (solver_tour N D f Hsol _ _ O1 Hu) as (r & Er & Pr). exists r.
    destruct (value_fits ceps seps N d C L W f Hd0 sets i j Hsets Hne Hi Hj HW') as [[V1 V2] _]. rewrite Er in V2.
    split; [rewrite El; f_equal; rewrite <- Er; now apply Hcache|]. split; [assumption|]. split; [now rewrite (demand_perm' d _ _ O2)|exact V2].
  - intros k Hk Hnk. simpl. fold (merged i j (union (set_at sets i) (set_at sets j)) (g_sets g)).
    rewrite merged_at_other; [apply Hun; [assumption|]| |]; intros X; apply Hnk; simpl; auto.
Qed.

(** ** The second pass *)
Lemma inner_wrap r : inner (wrap r) = r.
Proof. unfold inner, wrap. simpl. apply removelast_last. Qed.
Lemma hd_rev' (l : list nat) : hd 0%nat (rev l) = last l 0%nat.
Proof. destruct l as [|a l]; [reflexivity|]. destruct (exists_last (l := a :: l)) as (l' & x & ->); [discriminate|]. now rewrite rev_app_distr, last_last. Qed.
Lemma last_rev' (l : list nat) : last (rev l) 0%nat = hd 0%nat l.
Proof. destruct l as [|a l]; [reflexivity|]. simpl. apply last_last. Qed.

Lemma smash_ok i j si sj g : i <> j -> (i < length (g_sets g))%nat -> (j < length (g_sets g))%nat ->
  entry_at (g_sets g) i = Nodes si -> entry_at (g_sets g) j = Nodes sj -> gok g ->
  exists g', smash ceps seps D d C L i j si sj g = GOk g' /\ gok g' /\ length (g_sets g') = length (g_sets g).
Proof.
  intros Hne Hi Hj Ei Ej (G1 & G2 & G3). unfold smash.
  destruct (merged_nodes i j (union si sj) (g_sets g) _ _ Hne Hi Hj Ei Ej) as (rest & P1 & P2).
  destruct (union_ok _ _ _ _ _ G1 P1 P2) as [O1 O2].
  pose proof (Forall_perm' _ _ _ P1 G2) as F. inversion F as [|? ? Fi F']; subst. inversion F' as [|? ? Fj F'']; subst.
  destruct Fi as (ri & Li & Pi & Ci & Lli). destruct Fj as (rj & Lj & Pj & Cj & Llj). rewrite Li, Lj, !inner_wrap.
  destruct (exceeds C ceps (get_demand d si + get_demand d sj)) eqn:EC; [exists g; split; [reflexivity|]; split; [now split|reflexivity]|].
  cbv zeta.
  set (a0 := route_cost D ri + route_cost D rj + D (last ri 0%nat) (hd 0%nat rj) - D (last ri 0%nat) 0%nat - D (hd 0%nat rj) 0%nat).
  set (a1 := route_cost D ri + route_cost D rj + D (hd 0%nat ri) (hd 0%nat rj) - D (hd 0%nat ri) 0%nat - D (hd 0%nat rj) 0%nat).
  set (a2 := route_cost D ri + route_cost D rj + D (last ri 0%nat) (last rj 0%nat) - D (last ri 0%nat) 0%nat - D (last rj 0%nat) 0%nat).
  set (a3 := route_cost D ri + route_cost D rj + D (hd 0%nat ri) (last rj 0%nat) - D (hd 0%nat ri) 0%nat - D (last rj 0%nat) 0%nat).
  set (m := Z.min (Z.min a0 a1) (Z.min a2 a3)).
  destruct (exceeds L seps m) eqn:EL; [exists g; split; [reflexivity|]; split; [now split|reflexivity]|].
  set (route := if m =? a0 then ri ++ rj else if m =? a1 then rev ri ++ rj else if m =? a2 then ri ++ rev rj else rj ++ ri).
  eexists. split; [reflexivity|]. simpl. fold (merged i j (union si sj) (g_sets g)). rewrite merged_length. split; [|reflexivity].
  assert (E0 : route_cost D (ri ++ rj) = a0) by (rewrite (P_psavings.join_cost D ri rj Hsym); unfold a0; rewrite (Hsym (last ri 0%nat) 0%nat), (Hsym (hd 0%nat rj) 0%nat); lia).
  assert (E1 : route_cost D (rev ri ++ rj) = a1) by (rewrite (P_psavings.join_cost D _ rj Hsym), route_cost_rev, last_rev' by assumption; unfold a1; rewrite (Hsym (hd 0%nat ri) 0%nat), (Hsym (hd 0%nat rj) 0%nat); lia).
  assert (E2 : route_cost D (ri ++ rev rj) = a2) by (rewrite (P_psavings.join_cost D _ _ Hsym), route_cost_rev, hd_rev' by assumption; unfold a2; rewrite (Hsym (last ri 0%nat) 0%nat), (Hsym (last rj 0%nat) 0%nat); lia).
  assert (E3 : route_cost D (rj ++ ri) = a3) by (rewrite (P_psavings.join_cost D _ _ Hsym); unfold a3; rewrite (Hsym (hd 0%nat ri) 0%nat), (Hsym (last rj 0%nat) 0%nat), (Hsym (hd 0%nat ri) (last rj 0%nat)); lia).
  assert (Er : route_cost D route = m).
  { unfold route. destruct (Z.eqb_spec m a0); [lia|]. destruct (Z.eqb_spec m a1); [lia|]. destruct (Z.eqb_spec m a2); [lia|]. lia. }
  assert (Pr : Permutation route (union si sj)).
  { etransitivity; [|apply Permutation_sym; exact O2]. unfold route.
    destruct (m =? a0); [now apply Permutation_app|]. destruct (m =? a1); [apply Permutation_app; [etransitivity; [apply Permutation_sym, Permutation_rev|exact Pi]|exact Pj]|].
    destruct (m =? a2); [apply Permutation_app; [exact Pi|etransitivity; [apply Permutation_sym, Permutation_rev|exact Pj]]|].
    etransitivity; [apply Permutation_app_comm|]. now apply Permutation_app. }
  assert (HR : routed ((union si sj, (0%nat :: route ++ [0%nat], m)) :: g_cache g) (union si sj)).
  { exists route. split; [simpl; destruct (set_eqb_spec (union si sj) (union si sj)); [|congruence]; now rewrite Er|]. split; [assumption|].
    split; [|rewrite Er; now apply exceeds_within].
    apply exceeds_within in EC. rewrite (demand_perm' d _ _ O2). replace (demand d (si ++ sj)) with (get_demand d si + get_demand d sj); [exact EC|].
    unfold demand, get_demand. rewrite map_app. simpl. rewrite Hd0. assert (E : forall l m, sumZ (l ++ m) = sumZ l + sumZ m) by (induction l; intros; simpl; [lia|rewrite IHl; lia]).
    rewrite E. lia. }
  split; [exact O1|]. split; [|simpl; eapply forest_merged; eassumption]. simpl.
  eapply Forall_perm'; [apply Permutation_sym; exact P2|]. constructor; [exact HR|].
  eapply Forall_impl; [|exact F'']. intros s (r & R1 & R2). destruct (set_eqb_spec s (union si sj)) as [->|Hn]; [exact HR|].
  exists r. split; [|exact R2]. simpl. destruct (set_eqb_spec s (union si sj)); [congruence|exact R1].
Qed.

Lemma second_pass_ok : forall l g, (forall w i j, In (w, (i, j)) l -> (i < length (g_sets g))%nat /\ (j < length (g_sets g))%nat) -> gok g ->
  exists g', second_pass ceps seps D d C L l g = GOk g' /\ gok g'.
Proof.
  induction l as [|[w [i0 j0]] l IH]; intros g Hb Hg; simpl; [now exists g|].
  destruct (Hb w i0 j0 (or_introl eq_refl)) as [Bi Bj]. pose proof Hg as (G1 & G2 & G3).
  destruct (follow_ok (g_sets g) i0 G3 Bi) as (i & si & Fi & Li & Ei). destruct (follow_ok (g_sets g) j0 G3 Bj) as (j & sj & Fj & Lj & Ej).
  simpl in Fi, Fj. rewrite Fi, Fj. destruct (Nat.eqb_spec i j) as [|Hne]; [apply IH; [|assumption]; intros; apply (Hb w0); now right|].
  change (nth i (g_sets g) (MergedInto 0)) with (entry_at (g_sets g) i). change (nth j (g_sets g) (MergedInto 0)) with (entry_at (g_sets g) j). rewrite Ei, Ej.
  destruct (smash_ok i j si sj g Hne Li Lj Ei Ej Hg) as (g' & -> & Hg' & Hl). apply IH; [|assumption]. intros w' a b Hab. rewrite Hl. apply (Hb w'). now right.
Qed.

Lemma collect_ok c' : forall es, Forall (routed c') (nodes_of es) -> exists rs, greedy_collect c' es = Some (flat_map (fun r => 0%nat :: r) rs) /\
  Permutation (concat rs) (concat (nodes_of es)) /\ (Forall (fun s => s <> []) (nodes_of es) -> Forall (fun r => r <> []) rs) /\ Forall (feasible D d C L ceps seps) rs.
Proof.
  induction es as [|[s|i] es IH]; simpl; intros H; [exists []; repeat split; constructor| |now apply IH].
  inversion H as [|? ? (r & R1 & R2 & R3 & R4) H']; subst. destruct (IH H') as (rs & A1 & A2 & A3 & A4). exists (r :: rs).
  rewrite R1, A1. split; [|split; [|split]].
  - f_equal. unfold wrap. change (0%nat :: r ++ [0%nat]) with ((0%nat :: r) ++ [0%nat]). rewrite removelast_last. reflexivity.
  - simpl. now apply Permutation_app.
  - intros F. inversion F; subst. constructor; [|now apply A3]. intros ->. apply Permutation_nil in R2. congruence.
  - constructor; [|assumption]. split; [now rewrite (demand_perm' d _ _ R2)|assumption].
Qed.

Lemma cyclic_enc rs : flat_map (fun r => 0%nat :: r) rs ++ [0%nat] = encode rs.
Proof. unfold encode. induction rs as [|r rs IH]; simpl; [reflexivity|]. f_equal. rewrite <- app_assoc. simpl. rewrite <- app_assoc, IH. reflexivity. Qed.

Theorem greedy_merge_ok : Forall (set_fits ceps seps d C L f) sets -> Forall (has c) sets ->
  exists rs, greedy_merge ceps seps D d C L W (Mbst sv sets c) = GreedySol (encode rs) /\ serves N D d C L ceps seps rs.
Proof.
  intros Hfits Hhas. unfold greedy_merge. simpl.
  assert (G0 : gok (Gst (map Nodes sets) c)).
  { split; [simpl; now rewrite nodes_of_map|]. split; [|apply forest_start]. simpl. rewrite nodes_of_map. apply Forall_forall. intros s Hs.
    rewrite Forall_forall in Hfits, Hhas. destruct (Hfits s Hs) as [V1 V2]. specialize (Hhas s Hs). destruct (solver_tour N D f Hsol _ _ Hsets Hs) as (r & Er & Pr).
    exists r. rewrite Er in V2. split; [|now split]. unfold has in Hhas. destruct (lookup c s) as [e|] eqn:E; [|congruence]. f_equal. rewrite <- Er. now apply Hcache. }
  destruct (first_pass_ok (sv_sort sv) [] (Gst (map Nodes sets) c)) as [G1 L1]; simpl; auto.
  - intros x Hx. now apply sv_sort_in.
  - apply map_length.
  - intros k Hk _. unfold entry_at. rewrite (nth_indep _ _ (Nodes [])) by now rewrite map_length. apply (map_nth Nodes).
  - destruct (second_pass_ok (sv_sort sv) _ ltac:(intros w i j Hin; rewrite L1; apply (proj1 (sv_sort_in _ _)) in Hin; destruct (Hkeys w i j Hin) as (_ & ? & ? & _); auto) G1) as (g' & -> & G').
    destruct G' as (S1 & S2 & S3). destruct (collect_ok _ _ S2) as (rs & -> & A2 & A3 & A4). exists rs. split; [now rewrite cyclic_enc|].
    destruct S1 as (S1 & _ & S1'). split; [unfold covers; now rewrite A2|]. split; [now apply A3|assumption].
Qed.
End Greedy.
