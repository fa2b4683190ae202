(** * The generalized assignment heuristic: the search *)
From Verif Require Import Spec_rfcs Spec_inter Spec_savings PyBase M_util M_psavings P_base P_util M_gap Spec_gap P_gap Spec.
From Coq Require Import ZifyBool ZifyNat Lia List Permutation.
Import ListNotations.
Local Open Scope Z_scope.

Section Search.
Variables (eps : Z) (N : nat) (D : matrix) (d : demands) (C L : limit) (f : tsp).
Variables (seeds : nat -> nat -> option (nat -> nat -> Z)) (half_st : Z) (gurobi : nat -> gap -> bool -> gap_status).
Variables (mk fo ua ik : bool) (maxK maxKinc : nat).
Notation turn := (gap_turn eps N D d C L f seeds half_st gurobi mk fo ua ik maxK maxKinc).
Notation turns := (gap_turns eps N D d C L f seeds half_st gurobi mk fo ua ik maxK maxKinc).
Notation close := (close_turn N mk fo maxK).
Notation adaptive := (adaptive L ua).
Notation problem sd K tries := (build_gap N (stacked D half_st sd) d C K L (multiplier L ua tries)).

(** The most routes a program can have *)
Definition most_K : nat := if ik then Nat.max maxK maxKinc else maxK.
(** What is known of every solution found *)
Variable P : list (list nat) -> Prop.
Definition evaluates : Prop := forall t sd K tries a s, (K <= most_K)%nat ->
  solve_gap (gurobi t) (problem sd K tries) = Assigned a -> evaluate eps N d C L f a = Some s ->
  exists rs, s = (encode rs, routes_cost D rs, length rs) /\ P rs.
Hypothesis HE : evaluates.
Definition inv (st : gst) : Prop :=
  (g_K st <= maxK)%nat /\ (g_K st + g_inc st <= most_K)%nat /\ g_best st = best_of mk (g_found st) /\
  exists rss, found_are D (g_found st) rss /\ Forall P rss.
Definition out_ok (s : option (list nat)) (found : list (list nat * Z * nat)) : Prop :=
  s = sol_of (best_of mk found) /\ exists rss, found_are D found rss /\ Forall P rss.
Definition result_ok (r : gst + gap_out) : Prop :=
  match r with
  | inl st => inv st
  | inr (GapReturns s found) => out_ok s found
  | inr (GapInterrupted s found) => out_ok s found
  | inr GapRaises => True
  end.
Lemma next_ok st : g_inc st = 0%nat -> inv st -> result_ok (next_K mk maxK st).
Proof.
  intros Hi (H1 & H2 & H3 & H4). unfold next_K. set (stop := match g_best st with Some _ => _ | None => _ end).
  destruct (stop || (maxK <=? g_K st)%nat) eqn:E; cbn [result_ok].
  - split; [now rewrite H3|exact H4].
  - apply orb_false_iff in E. destruct E as [_ E]. apply Nat.leb_gt in E. split; cbn; [lia|]. split; [|auto]. rewrite Hi. unfold most_K. destruct ik; lia.
Qed.
Lemma close_ok st sol tries inc nx : inv st -> (g_K st + inc <= most_K)%nat ->
  (forall s, sol = Some s -> exists rs, s = (encode rs, routes_cost D rs, length rs) /\ P rs) -> result_ok (close st sol tries inc nx).
Proof.
  intros (H1 & H2 & H3 & rss & H4 & H5) Hi Hs. unfold close_turn. set (trial := if nx then S (g_trial st) else g_trial st).
  set (inc' := if nx || (trial =? N)%nat then 0%nat else inc).
  match goal with |- context [mkgst ?a ?b ?c ?e ?g ?h ?i ?j] => set (st' := mkgst a b c e g h i j) end.
  assert (HI : inv st').
  { unfold st', inv. cbn [g_K g_inc g_best g_found]. split; [exact H1|]. split; [unfold inc'; destruct (nx || _); [unfold most_K in *; destruct ik; lia|exact Hi]|].
    destruct sol as [s|].
    - split; [unfold best_of; rewrite fold_left_app; cbn [fold_left]; rewrite H3; reflexivity|]. destruct (Hs s eq_refl) as (rs & -> & HP). exists (rss ++ [rs]).
      split; [unfold found_are in *; rewrite H4, map_app; reflexivity|]. apply Forall_app. auto.
    - split; [exact H3|]. exists rss. auto. }
  destruct (nx && negb fo || (trial =? N)%nat) eqn:E; [|exact HI]. apply next_ok; [|exact HI]. unfold st', inc'. cbn [g_inc].
  destruct nx; [reflexivity|]. cbn [andb orb] in *. now rewrite E.
Qed.
Lemma error_inc K inc tries t i b : after_error L fo ua ik maxKinc K inc tries = Some (t, i, b) -> i = inc \/ (i = S inc /\ ik = true /\ (K + inc + 1 <= maxKinc)%nat).
Proof.
  unfold after_error. destruct (adaptive && (tries <? 3)%nat); [intros E; injection E as <- <- <-; auto|].
  destruct (ik && (K + inc + 1 <=? maxKinc)%nat) eqn:E; [apply andb_true_iff in E; destruct E as [E1 E2]; apply Nat.leb_le in E2; intros E; injection E as <- <- <-; auto|].
  destruct fo; [intros E'; injection E' as <- <- <-; auto|discriminate].
Qed.
Lemma attempt_inc sv K inc tries t i b : after_attempt L ua ik maxKinc sv K inc tries = (t, i, b) -> i = inc \/ (i = S inc /\ ik = true /\ (K + inc + 1 <= maxKinc)%nat).
Proof.
  unfold after_attempt. destruct (negb sv && ik && (K + inc + 1 <=? maxKinc)%nat) eqn:E.
  - rewrite !andb_true_iff in E. destruct E as [[_ E1] E2]. apply Nat.leb_le in E2. destruct adaptive; [destruct (sv || _)|]; intros G; injection G as <- <- <-; auto.
  - destruct adaptive; [destruct (sv || _)|]; intros G; injection G as <- <- <-; auto.
Qed.
Lemma inc_bound K inc i : (K + inc <= most_K)%nat -> i = inc \/ (i = S inc /\ ik = true /\ (K + inc + 1 <= maxKinc)%nat) -> (K + i <= most_K)%nat.
Proof. intros H [->|(-> & E & H')]; [exact H|]. unfold most_K in *. rewrite E in *. lia. Qed.
Lemma turn_ok st : inv st -> result_ok (turn st).
Proof.
  intros HI. pose proof HI as (H1 & H2 & H3 & H4). unfold gap_turn. destruct (seeds _ _) as [sd|]; [|exact I].
  destruct (solve_gap _ _) as [a| | |] eqn:ES.
  - destruct (after_attempt _ _ _ _ _ _ _ _) as [[t i] b] eqn:EA. apply close_ok; [exact HI|eapply inc_bound; [exact H2|eapply attempt_inc, EA]|].
    intros s Hs. eapply HE; [exact H2|exact ES|exact Hs].
  - destruct (after_attempt _ _ _ _ _ _ _ _) as [[t i] b] eqn:EA. apply close_ok; [exact HI|eapply inc_bound; [exact H2|eapply attempt_inc, EA]|discriminate].
  - destruct (after_error _ _ _ _ _ _ _ _) as [[[t i] b]|] eqn:EA; [|exact I]. apply close_ok; [exact HI|eapply inc_bound; [exact H2|eapply error_inc, EA]|discriminate].
  - cbn. split; [now rewrite H3|exact H4].
Qed.
Lemma turns_ok : forall n st, inv st -> result_ok (turns n st).
Proof.
  induction n as [|n IH]; intros st HI; [exact HI|]. cbn [gap_turns]. pose proof (turn_ok st HI) as G. destruct (turn st) as [st'|r]; [now apply IH|exact G].
Qed.

(** ** It ends *)
Lemma turns_more n : forall st r, turns n st = inr r -> forall m, (n <= m)%nat -> turns m st = inr r.
Proof.
  clear HE. induction n as [|n IH]; intros st r E m Hm; [discriminate|]. destruct m as [|m]; [lia|]. cbn [gap_turns] in *. destruct (turn st) as [st'|r']; [apply (IH st'); [exact E|lia]|exact E].
Qed.
Definition halts (st : gst) : Prop := exists n r, turns n st = inr r.
Lemma halts_step st : (forall st', turn st = inl st' -> halts st') -> halts st.
Proof.
  intros H. destruct (turn st) as [st'|r] eqn:E; [|exists 1%nat, r; cbn [gap_turns]; now rewrite E].
  destruct (H st' eq_refl) as (n & r & E'). exists (S n), r. cbn [gap_turns]. now rewrite E.
Qed.
Definition room (K inc tries : nat) : nat := (4 * (maxKinc + 1 - (K + inc)) + (3 - tries))%nat.
(** After a turn: the next K, the next trial, or less room *)
Definition ahead (st st' : gst) : Prop :=
  (g_tries st' <= 3)%nat /\
  ((g_K st' = S (g_K st) /\ (g_K st < maxK)%nat /\ g_trial st' = 0%nat) \/
   (g_K st' = g_K st /\ g_trial st' = S (g_trial st) /\ (g_trial st' <> N)) \/
   (g_K st' = g_K st /\ g_trial st' = g_trial st /\ (room (g_K st') (g_inc st') (g_tries st') < room (g_K st) (g_inc st) (g_tries st))%nat)).
Lemma close_ahead st sol tries inc (nx : bool) st' : (tries <= 3)%nat -> (g_trial st < N)%nat ->
  (nx = false -> (room (g_K st) inc tries < room (g_K st) (g_inc st) (g_tries st))%nat) ->
  close st sol tries inc nx = inl st' -> ahead st st'.
Proof.
  clear HE. intros Ht HN Hr. unfold close_turn. set (trial := if nx then S (g_trial st) else g_trial st). cbv zeta.
  destruct (nx && negb fo || (trial =? N)%nat) eqn:E; intros G.
  - unfold next_K in G. cbn [g_best g_improved g_K g_inc g_tries g_found g_calls] in G. destruct (_ || (maxK <=? g_K st)%nat) eqn:E2; [discriminate|]. injection G as <-. apply orb_false_iff in E2. destruct E2 as [_ E2]. apply Nat.leb_gt in E2.
    split; cbn; [lia|]. left. auto.
  - injection G as <-. apply orb_false_iff in E. destruct E as [E1 E2]. apply Nat.eqb_neq in E2. split; cbn; [lia|]. unfold trial in *. destruct nx; [right; left; auto|right; right].
    split; [reflexivity|]. split; [reflexivity|]. cbn [orb]. replace (g_trial st =? N)%nat with false by (symmetry; apply Nat.eqb_neq; exact E2). now apply Hr.
Qed.
Lemma error_room K inc tries t i b : (tries <= 3)%nat -> after_error L fo ua ik maxKinc K inc tries = Some (t, i, b) -> (t <= 3)%nat /\ (b = false -> (room K i t < room K inc tries)%nat).
Proof.
  clear HE. intros Ht. unfold after_error, room. destruct (adaptive && (tries <? 3)%nat) eqn:E1.
  - apply andb_true_iff in E1. destruct E1 as [_ E1]. apply Nat.ltb_lt in E1. intros E; injection E as <- <- <-. lia.
  - destruct (ik && (K + inc + 1 <=? maxKinc)%nat) eqn:E; [|destruct fo; [intros E'; injection E' as <- <- <-; split; [lia|discriminate]|discriminate]].
    apply andb_true_iff in E. destruct E as [_ E2]. apply Nat.leb_le in E2. intros G; injection G as <- <- <-. destruct (if adaptive && _ then 0%nat else tries) as [|[|[|[|?]]]] eqn:Ei; (split; [|intros _]); destruct (adaptive && _) in Ei; lia.
Qed.
Lemma attempt_room sv K inc tries t i b : (tries <= 3)%nat -> after_attempt L ua ik maxKinc sv K inc tries = (t, i, b) -> (t <= 3)%nat /\ (b = false -> (room K i t < room K inc tries)%nat).
Proof.
  clear HE. intros Ht. unfold after_attempt, room. destruct (negb sv && ik && (K + inc + 1 <=? maxKinc)%nat) eqn:E.
  - rewrite !andb_true_iff in E. destruct E as [_ E2]. apply Nat.leb_le in E2. destruct adaptive; [destruct (sv || (3 <=? tries)%nat) eqn:E3|]; intros G; injection G as <- <- <-; [lia| |lia].
    apply orb_false_iff in E3. destruct E3 as [_ E3]. apply Nat.leb_gt in E3. lia.
  - destruct adaptive; [destruct (sv || (3 <=? tries)%nat) eqn:E3|]; intros G; injection G as <- <- <-; [split; [lia|discriminate]| |split; [lia|discriminate]].
    apply orb_false_iff in E3. destruct E3 as [_ E3]. apply Nat.leb_gt in E3. lia.
Qed.
Lemma turn_ahead st st' : (g_tries st <= 3)%nat -> (g_trial st < N)%nat -> turn st = inl st' -> ahead st st'.
Proof.
  clear HE. intros Ht HN. unfold gap_turn. destruct (seeds _ _) as [sd|]; [|discriminate]. destruct (solve_gap _ _) as [a| | |].
  - destruct (after_attempt _ _ _ _ _ _ _ _) as [[t i] b] eqn:EA. apply attempt_room in EA; [|exact Ht]. apply close_ahead; tauto.
  - destruct (after_attempt _ _ _ _ _ _ _ _) as [[t i] b] eqn:EA. apply attempt_room in EA; [|exact Ht]. apply close_ahead; tauto.
  - destruct (after_error _ _ _ _ _ _ _ _) as [[[t i] b]|] eqn:EA; [|discriminate]. apply error_room in EA; [|exact Ht]. apply close_ahead; tauto.
  - discriminate.
Qed.
Lemma all_halt : (1 <= N)%nat -> forall a b c st, (maxK - g_K st < a)%nat -> (N - g_trial st < b)%nat -> (room (g_K st) (g_inc st) (g_tries st) < c)%nat ->
  (g_tries st <= 3)%nat -> (g_trial st < N)%nat -> halts st.
Proof.
  clear HE. intros HN. induction a as [|a IHa]; [lia|]. induction b as [|b IHb]; [lia|]. induction c as [|c IHc]; [lia|]. intros st Ha Hb Hc Ht HT.
  apply halts_step. intros st' E. destruct (turn_ahead st st' Ht HT E) as [T' [(K' & Hm & T0)|[(K' & T1 & T2)|(K' & T1 & T2)]]].
  - apply (IHa (S (N - 0)) (S (room (g_K st') (g_inc st') (g_tries st')))); lia.
  - apply (IHb (S (room (g_K st') (g_inc st') (g_tries st')))); lia.
  - apply IHc; lia.
Qed.
Lemma halts_all st : (1 <= N)%nat -> (g_tries st <= 3)%nat -> (g_trial st < N)%nat -> halts st.
Proof. clear HE. intros HN Ht HT. apply (all_halt HN (S (maxK - g_K st)) (S (N - g_trial st)) (S (room (g_K st) (g_inc st) (g_tries st)))); lia. Qed.
End Search.

(** ** The lower bound from the length limit *)
Definition absZ (l : list Z) : Z := sumZ (map Z.abs l).
Lemma firstn_abs : forall l n, sumZ (firstn n l) <= absZ l.
Proof.
  unfold absZ, sumZ. induction l as [|x l IH]; intros n; [rewrite firstn_nil; cbn; lia|]. destruct n as [|n]; cbn [firstn fold_right map].
  - assert (forall m : list Z, 0 <= fold_right Z.add 0 (map Z.abs m)) by (induction m; cbn [map fold_right]; lia). specialize (H l). lia.
  - specialize (IH n). lia.
Qed.
Lemma fit_ends L tour edges K : 0 < L -> exists f0 r, forall fuel, (f0 <= fuel)%nat -> fit_K L tour edges fuel K = Some r.
Proof.
  intros HL. remember (Z.to_nat (tour + absZ edges) - K)%nat as m eqn:Em. revert K Em. induction m as [|m IH]; intros K Em.
  - exists 1%nat, K. intros fuel Hf. destruct fuel as [|fuel]; [lia|]. cbn [fit_K]. pose proof (firstn_abs edges (2 * K)). replace (_ <=? _) with true; [reflexivity|].
    symmetry. apply Z.leb_le. assert (tour + absZ edges <= Z.of_nat K) by lia. nia.
  - destruct (tour + sumZ (firstn (2 * K) edges) <=? Z.of_nat K * L) eqn:E.
    + exists 1%nat, K. intros fuel Hf. destruct fuel as [|fuel]; [lia|]. cbn [fit_K]. now rewrite E.
    + destruct (IH (S K) ltac:(lia)) as (f0 & r & G). exists (S f0), r. intros fuel Hf. destruct fuel as [|fuel]; [lia|]. cbn [fit_K]. rewrite E. apply G. lia.
Qed.
Lemma fit_more L tour edges : forall fuel K r, fit_K L tour edges fuel K = Some r -> forall m, (fuel <= m)%nat -> fit_K L tour edges m K = Some r.
Proof. induction fuel as [|fuel IH]; intros K r E m Hm; [discriminate|]. destruct m as [|m]; [lia|]. cbn [fit_K] in *. destruct (_ <=? _); [exact E|]. apply IH; [exact E|lia]. Qed.
