(** * The petal algorithm: interrupts are passed on while the number of routes is limited *)
From Verif Require Import Spec Spec_rfcs Spec_inter Spec_petal PyBase M_util M_cvrp_ops M_routedata M_inter M_psavings M_ssavings M_sweep M_petal.
From Coq Require Import ZifyBool ZifyNat Lia Arith List Permutation.
Import ListNotations.
Local Open Scope Z_scope.

Section Same.
Variable eps : Z.
Variables g g' r r' : scp -> status.
Hypothesis Hg : same_but_interrupts g g'.
Hypothesis Hr : same_but_interrupts r r'.

Lemma solve_same : forall active relaxed forbidden allow K,
  solve_set_covering g r active relaxed forbidden allow K <> SolverInterrupt ->
  solve_set_covering g' r' active relaxed forbidden allow K = solve_set_covering g r active relaxed forbidden allow K.
Proof.
  intros active relaxed forbidden allow K H. unfold solve_set_covering in *.
  set (p := mkscp _ _ _ _) in *. pose proof (Hg p) as HG. pose proof (Hr p) as HR.
  destruct (g p) eqn:E; try (rewrite HG by discriminate; reflexivity); [congruence|].
  rewrite HG by discriminate. destruct allow; [|reflexivity].
  destruct (r p) eqn:E2; try (rewrite HR by discriminate; reflexivity). congruence.
Qed.

Variables (N : nat) (D : matrix) (d : demands) (C L : limit) (minimize_K : bool) (K : option Z) (relaxe : bool).
Variables (required min_iter : option nat) (disc : discarding) (all_limit : nat) (restricted reduced extended : list petal).

Lemma phase3_same : forall st rs fe s seen o, phase3 g r K restricted reduced extended st rs fe s seen = o ->
  match o with Some ph => ph_int ph = true | None => False end \/ phase3 g' r' K restricted reduced extended st rs fe s seen = o.
Proof.
  intros st rs fe s seen o <-. unfold phase3. destruct (_ || _); [|right; reflexivity].
  pose proof (solve_same (active_of restricted reduced extended Extended) (ps_relaxed st) (ps_forbidden st) (ps_allow st) (ps_K st)) as H.
  destruct (solve_set_covering g r _ _ _ _ _); [right; rewrite H by discriminate; reflexivity|right; rewrite H by discriminate; reflexivity|left; reflexivity].
Qed.
Lemma phase2_same : forall st rs fe seen o, phase2 g r K restricted reduced extended st rs fe seen = o ->
  match o with Some ph => ph_int ph = true | None => False end \/ phase2 g' r' K restricted reduced extended st rs fe seen = o.
Proof.
  intros st rs fe seen o <-. unfold phase2. destruct (match ps_set st with Restricted => _ | Reduced => _ | Extended => _ end); [|apply phase3_same; reflexivity].
  pose proof (solve_same (active_of restricted reduced extended Reduced) (ps_relaxed st) (ps_forbidden st) (ps_allow st) (ps_K st)) as H.
  destruct (solve_set_covering g r _ _ _ _ _); [rewrite H by discriminate; apply phase3_same; reflexivity|right; rewrite H by discriminate; reflexivity|left; reflexivity].
Qed.
Lemma phase1_same : forall st o, phase1 g r K restricted reduced extended st = o ->
  match o with Some ph => ph_int ph = true | None => False end \/ phase1 g' r' K restricted reduced extended st = o.
Proof.
  intros st o <-. unfold phase1. destruct (ps_set st); [|apply phase2_same; reflexivity|apply phase2_same; reflexivity].
  destruct restricted as [|p0 pt] eqn:ER; rewrite <- ER; [apply phase2_same; reflexivity|].
  pose proof (solve_same restricted (ps_relaxed st) (ps_forbidden st) (ps_allow st) (ps_K st)) as H.
  destruct (solve_set_covering g r _ _ _ _ _); [rewrite H by discriminate; apply phase2_same; reflexivity|right; rewrite H by discriminate; reflexivity|left; reflexivity].
Qed.

(** An interrupted round ends in an interrupt if there is a limit on the number of routes. *)
Lemma iter_same : forall st, (exists k, ps_K st = Some k /\ 0 < k) ->
  (exists b, petal_iter eps g r N D d C L minimize_K K relaxe required min_iter disc all_limit restricted reduced extended st = inr (PtInterrupt b)) \/
  petal_iter eps g' r' N D d C L minimize_K K relaxe required min_iter disc all_limit restricted reduced extended st =
  petal_iter eps g r N D d C L minimize_K K relaxe required min_iter disc all_limit restricted reduced extended st.
Proof.
  intros st (k & EK & Hk). unfold petal_iter.
  destruct (phase1_same st _ eq_refl) as [H|H]; [|right; rewrite H; reflexivity].
  destruct (phase1 g r K restricted reduced extended st) as [ph|]; [|contradiction]. left. rewrite H.
  assert (ET : truthy (ps_K st) = Some k). { rewrite EK. unfold truthy. destruct (k =? 0) eqn:E; [lia|reflexivity]. }
  cbv zeta. destruct (match ph_routes ph with [] => false | _ :: _ => negb (seen_inZ (map snd (ph_routes ph)) (ps_forbidden st)) end).
  - match goal with |- context[match ?x with (_, _) => _ end] => destruct x as [[routes feas] allow] end.
    match goal with |- context[match ?x with (_, _) => _ end] => destruct x as [[set' K'] stop] end.
    match goal with |- context[match ?x with (_, _) => _ end] => destruct x as [[[best bf] bK] bfeas] end.
    rewrite orb_true_r. eexists; reflexivity.
  - rewrite ET. destruct (ph_set ph); eexists; reflexivity.
Qed.
(** The limit stays *)
Lemma iter_K : forall st st', (exists k, ps_K st = Some k /\ 0 < k) ->
  petal_iter eps g r N D d C L minimize_K K relaxe required min_iter disc all_limit restricted reduced extended st = inl st' ->
  exists k, ps_K st' = Some k /\ 0 < k.
Proof.
  intros st st' (k & EK & Hk) H. unfold petal_iter in H.
  assert (ET : truthy (ps_K st) = Some k). { rewrite EK. unfold truthy. destruct (k =? 0) eqn:E; [lia|reflexivity]. }
  destruct (phase1 g r K restricted reduced extended st) as [ph|]; [|discriminate].
  cbv zeta in H. destruct (match ph_routes ph with [] => false | _ :: _ => negb (seen_inZ (map snd (ph_routes ph)) (ps_forbidden st)) end).
  - match type of H with context[match (if negb (ph_feas ph) && negb (ph_int ph) then ?a else ?b) with (_, _) => _ end] => destruct (if negb (ph_feas ph) && negb (ph_int ph) then a else b) as [[routes feas] allow] end.
    match type of H with context[if (if ps_feas st then ?a else ?b) then (ph_set ph, ps_K st, false) else ?c] =>
      assert (HK : exists k', snd (fst (if (if ps_feas st then a else b) then (ph_set ph, ps_K st, false) else c)) = Some k' /\ 0 < k')
    end.
    { match goal with |- context[if (if ps_feas st then ?a else ?b) then _ else _] => destruct (if ps_feas st then a else b); [exists k; auto|] end. rewrite ET.
      destruct (ph_set ph); [exists k; auto| |];
        (destruct (_ || _); [exists k; auto|]; destruct (negb (ps_feas st)); [exists (k + 1); split; [reflexivity|lia]|exists k; auto]). }
    match type of H with context[match ?x with (_, _) => _ end] => destruct x as [[set' K'] stop]; cbn [fst snd] in HK end.
    match type of H with context[match ?x with (_, _) => _ end] => destruct x as [[[best bf] bK] bfeas] end.
    destruct (_ || ph_int ph); [discriminate|].
    match type of H with context[match ?x with (_, _) => _ end] => destruct x as [[seen relaxed] cnt] end. injection H as <-. exact HK.
  - rewrite ET in H. destruct (ph_set ph), (ph_int ph); try discriminate; injection H as <-; cbn [ps_K]; first [exists k; split; [assumption|lia] | exists (k + 1); split; [reflexivity|lia]].
Qed.
Lemma loop_same : forall fuel st, (exists k, ps_K st = Some k /\ 0 < k) ->
  (exists b cnt, petal_loop eps g r N D d C L minimize_K K relaxe required min_iter disc all_limit restricted reduced extended fuel st = Some (PtInterrupt b, cnt)) \/
  petal_loop eps g' r' N D d C L minimize_K K relaxe required min_iter disc all_limit restricted reduced extended fuel st =
  petal_loop eps g r N D d C L minimize_K K relaxe required min_iter disc all_limit restricted reduced extended fuel st.
Proof.
  induction fuel as [|fuel IH]; intros st HK; [right; reflexivity|]. cbn [petal_loop].
  destruct (iter_same st HK) as [(b & E)|E]; [left; rewrite E; eauto|]. rewrite E.
  destruct (petal_iter eps g r N D d C L minimize_K K relaxe required min_iter disc all_limit restricted reduced extended st) as [st'|o] eqn:EI; [|right; reflexivity].
  apply IH. eapply iter_K; eassumption.
Qed.
End Same.

Lemma init_same : forall eps g g' r r', same_but_interrupts g g' -> same_but_interrupts r r' ->
  forall N D d C L f order K minimize_K relaxe required min_iter ratio allow disc v fuel,
  (limit_set K \/ minimize_K = true) -> (forall k, K = Some k -> 0 <= k) -> 0 < v ->
  (exists b cnt, petal_init eps g r N D d C L f order K minimize_K relaxe required min_iter ratio allow disc v fuel = Some (PtInterrupt b, cnt)) \/
  petal_init eps g' r' N D d C L f order K minimize_K relaxe required min_iter ratio allow disc v fuel =
  petal_init eps g r N D d C L f order K minimize_K relaxe required min_iter ratio allow disc v fuel.
Proof.
  intros eps g g' r r' Hg Hr N D d C L f order K mk relaxe required min_iter ratio allow disc v fuel HK HK0 Hv. unfold petal_init.
  destruct (generate_petals _ _ _ _ _ _ _ _ _ _ _); [|right; reflexivity].
  apply loop_same; [assumption..|]. unfold petal_start. cbn [ps_K]. unfold truthy, limit_set in *.
  assert (HL : 0 < match (match C with Some c => if c =? 0 then None else Some c | None => None end) with Some _ => v | None => 1 end)
    by (destruct C as [c|]; [destruct (c =? 0)|]; lia).
  destruct K as [k|].
  - specialize (HK0 k eq_refl). destruct (k =? 0) eqn:E; [|exists k; split; [reflexivity|lia]].
    destruct HK as [HK|HK]; [lia|subst mk; eexists; split; [reflexivity|assumption]].
  - destruct HK as [HK|HK]; [contradiction|subst mk; eexists; split; [reflexivity|assumption]].
Qed.
