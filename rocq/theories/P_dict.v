(** * The example with a dictionary *)
From Verif Require Import Spec Spec_inter Spec_savings Spec_all PyBase P_base P_cvrp M_cvrp_ops M_cli M_algos Spec_algos P_algos P_tyagi3 M_dict Spec_dict.
From Coq Require Import ZifyBool ZifyNat Lia Arith List Permutation.
Import ListNotations.
Local Open Scope Z_scope.

Lemma dd_D_entry x i j row v : nth_error (dd_matrix x) i = Some row -> nth_error row j = Some v -> dd_D x i j = v.
Proof.
  intros H1 H2. unfold dd_D. rewrite (nth_error_nth _ _ _ H1). now apply nth_error_nth.
Qed.

Lemma convert_spec x C : convert x = Some C <-> consistent x C.
Proof.
  unfold convert. split.
  - intros H. destruct (dd_capacities x) as [|c t] eqn:Ec; [discriminate|].
    destruct (_ && _ && _) eqn:E in H; [|discriminate]. injection H as ->.
    apply andb_prop in E as [E E3]. apply andb_prop in E as [E1 E2]. apply andb_prop in E2 as [E2 E5]. apply andb_prop in E2 as [E2 E6]. apply andb_prop in E2 as [E2 E4].
    rewrite forallb_forall in E1, E5. unfold dd_N in *.
    assert (Sq : forall row, In row (dd_matrix x) -> length row = length (dd_matrix x)) by (intros row Hr; apply Nat.eqb_eq, E5, Hr).
    constructor; auto.
    + congruence.
    + intros c' Hc. rewrite Ec in Hc. specialize (E1 _ Hc). lia.
    + intros E0. now rewrite E0 in E6.
    + apply Nat.eqb_eq in E2, E4. congruence.
    + apply Nat.eqb_eq in E4. exact E4.
    + intros i j row row' Hi Hj. unfold check_symmetric, dd_N in E3. rewrite forallb_forall in E3.
      assert (Li : (i < length (dd_matrix x))%nat) by (apply nth_error_Some; congruence).
      assert (Lj : (j < length (dd_matrix x))%nat) by (apply nth_error_Some; congruence).
      specialize (E3 i). rewrite forallb_forall in E3. specialize (E3 ltac:(unfold range; apply in_seq; lia) j ltac:(unfold range; apply in_seq; lia)).
      pose proof (Sq _ (nth_error_In _ _ Hi)) as L1. pose proof (Sq _ (nth_error_In _ _ Hj)) as L2.
      destruct (nth_error row j) as [v|] eqn:Ev; [|apply nth_error_None in Ev; lia].
      destruct (nth_error row' i) as [w|] eqn:Ew; [|apply nth_error_None in Ew; lia].
      rewrite (dd_D_entry x i j row v Hi Ev), (dd_D_entry x j i row' w Hj Ew) in E3. f_equal. lia.
  - intros [H1 H2 H0 H3 H4 H5 H6]. destruct (dd_capacities x) as [|c t] eqn:Ec; [easy|].
    assert (c = C) as -> by (apply H2; now left).
    replace (forallb (fun vC => vC =? C) (C :: t)) with true.
    2:{ symmetry. apply forallb_forall. intros v Hv. specialize (H2 _ Hv). lia. }
    unfold dd_N. rewrite H3, H4, Nat.eqb_refl. cbn [andb].
    replace (negb (Nat.eqb (length (dd_matrix x)) 0)) with true by (destruct (dd_matrix x); easy). cbn [andb].
    replace (forallb _ (dd_matrix x)) with true.
    2:{ symmetry. apply forallb_forall. intros row Hr. apply Nat.eqb_eq, H5, Hr. }
    replace (check_symmetric x) with true; [reflexivity|].
    symmetry. unfold check_symmetric, dd_N. apply forallb_forall. intros i Hi. apply forallb_forall. intros j Hj.
    unfold range in Hi, Hj. apply in_seq in Hi, Hj.
    destruct (nth_error (dd_matrix x) i) as [row|] eqn:Ei; [|apply nth_error_None in Ei; lia].
    destruct (nth_error (dd_matrix x) j) as [row'|] eqn:Ej; [|apply nth_error_None in Ej; lia].
    pose proof (H6 i j _ _ Ei Ej) as E.
    pose proof (H5 _ (nth_error_In _ _ Ei)) as L1. pose proof (H5 _ (nth_error_In _ _ Ej)) as L2.
    destruct (nth_error row j) as [v|] eqn:Ev; [|apply nth_error_None in Ev; lia].
    rewrite (dd_D_entry x i j row v Ei Ev), (dd_D_entry x j i row' v Ej) by congruence. lia.
Qed.

Lemma dict_symmetric x C : consistent x C -> symmetric (dd_D x).
Proof.
  intros [_ _ _ _ _ H5 H6] i j.
  assert (Out : forall i j, nth_error (dd_matrix x) i = None -> dd_D x i j = 0 /\ dd_D x j i = 0).
  { clear i j. intros i j E. apply nth_error_None in E. unfold dd_D. rewrite (nth_overflow (dd_matrix x)) by lia. split; [now destruct j|].
    destruct (Nat.lt_ge_cases j (length (dd_matrix x))) as [Hj|Hj].
    - apply nth_overflow. rewrite (H5 (nth j (dd_matrix x) [])); [lia|]. now apply nth_In.
    - rewrite (nth_overflow (dd_matrix x)) by lia. now destruct i. }
  destruct (nth_error (dd_matrix x) i) as [row|] eqn:Ei; [|destruct (Out i j Ei); congruence].
  destruct (nth_error (dd_matrix x) j) as [row'|] eqn:Ej; [|destruct (Out j i Ej); congruence].
  pose proof (H6 i j _ _ Ei Ej) as E.
  assert (Lj : (j < length (dd_matrix x))%nat) by (apply nth_error_Some; congruence).
  destruct (nth_error row j) as [v|] eqn:Ev.
  2:{ apply nth_error_None in Ev. rewrite (H5 _ (nth_error_In _ _ Ei)) in Ev. lia. }
  rewrite (dd_D_entry x i j row v Ei Ev), (dd_D_entry x j i row' v Ej) by congruence. reflexivity.
Qed.

Lemma nth_nonneg l i : (forall v, In v l -> 0 <= v) -> 0 <= nth i l 0.
Proof. intros H. destruct (nth_in_or_default i l 0) as [Hin| ->]; [auto|lia]. Qed.

Lemma dict_problem x C eps : consistent x C -> solvable x C eps ->
  Spec_all.problem (dd_N x) (dd_D x) (dd_d x) (Some C) None eps.
Proof.
  intros HC [S1 S2 S3 [S4 (row & S5 & S6)] S7 S8].
  assert (Hd : dd_d x 0%nat = 0).
  { unfold dd_d. destruct (dd_demands x); cbn in S4; [discriminate|]. now injection S4 as ->. }
  assert (H0 : dd_D x 0%nat 0%nat = 0).
  { unfold dd_D. destruct (dd_matrix x); cbn in S5; [discriminate|]. injection S5 as ->. cbn. destruct row; cbn in *; [discriminate|]. congruence. }
  constructor; auto.
  - now apply (dict_symmetric x C).
  - intros i j. unfold dd_D. apply nth_nonneg. intros v Hv.
    destruct (nth_in_or_default i (dd_matrix x) []) as [Hin|E]; [eauto|]. rewrite E in Hv. easy.
  - intros n. unfold dd_d. now apply nth_nonneg.
  - intros i Hi. split; [|exact I]. cbn. intros Hc. unfold demand. cbn. rewrite Z.add_0_r.
    destruct S8 as [S8|S8]; [easy|]. unfold dd_d. destruct HC as [_ _ _ _ H4 _ _]. apply S8, nth_In. unfold dd_N in Hi. lia.
Qed.

Lemma feasible_rev D d C L e e' r r' : symmetric D -> same_dir r r' -> feasible D d C L e e' r -> feasible D d C L e e' r'.
Proof. intros HS [->| ->]; [auto|]. unfold feasible. now rewrite demand_rev, route_cost_rev. Qed.

Lemma covers_customers N rs : covers N rs -> Forall customers_only rs.
Proof.
  unfold covers. intros HP. apply Forall_forall. intros r Hr. apply Forall_forall. intros n Hn.
  assert (H : In n (concat rs)) by (apply in_concat; eauto). apply (Permutation_in n HP) in H. apply in_seq in H. lia.
Qed.

Lemma dict_row_ok N D d C L e e' rs : symmetric D -> D 0%nat 0%nat = 0 -> serves N D d C L e e' rs ->
  exists ns, serves N D d C L e e' ns /\ same_routes rs ns /\
  dict_row D (Some (encode rs)) = Some (routes_cost D ns, length ns, encode ns).
Proof.
  intros HS H0 (H1 & H2 & H3). pose proof (covers_customers _ _ H1) as Hc. exists (nf rs).
  assert (HS' : same_routes rs (nf rs)).
  { replace rs with (filter nonempty rs) at 1; [apply nf_same|]. apply filter_nonempty_id, H2. }
  split; [|split; [exact HS'|]].
  - split; [|split; [apply nf_nonempty|]].
    + unfold covers in *. now rewrite nf_concat.
    + destruct HS' as (fs & HF & HP). eapply Forall_perm; [exact HP|]. clear HP H1 H2 Hc.
      induction HF as [|r f rs fs Hd HF IH]; [constructor|]. inversion H3; subst. constructor; [eapply feasible_rev; eauto|].
      now apply IH.
  - unfold dict_row. rewrite normalize_giant by exact Hc. rewrite recalc_giant by exact H0.
    rewrite P_savfam.count_encode by (apply nf_customers, Hc). repeat f_equal. lia.
Qed.

Lemma dict_attempt_settles call o : settles call o -> ends_with (dict_attempt call) o.
Proof.
  intros [(sol & -> & f & E)|(o1 & N1 & (f1 & E1) & (f2 & E2))].
  - exists f. intros fuel Hf. unfold dict_attempt. now rewrite E.
  - exists (Nat.max f1 f2). intros fuel Hf. unfold dict_attempt. rewrite E1 by lia.
    destruct o1 as [sol| |]; [exfalso; now apply (N1 sol)| |]; apply E2; lia.
Qed.

Lemma dict_rows_any {A} N D d C eps (call : A -> bool -> nat -> option algo_outcome) algos rest out :
  symmetric D -> D 0%nat 0%nat = 0 ->
  Forall (fun a => exists rs, serves N D d (Some C) None eps eps rs /\ settles (call a) (Returns (Some (encode rs)))) algos ->
  ends_with (dict_rows D call rest) ([], out) ->
  exists rows, ends_with (dict_rows D call (algos ++ rest)) (rows, out) /\ Forall2 (good_row N D d C eps) algos rows.
Proof.
  intros HS H0 HF HR. induction HF as [|a algos (rs & HV & Ha) HF (rows & (f2 & E2) & IH)].
  - exists []. split; [exact HR|constructor].
  - apply dict_attempt_settles in Ha as (f1 & E1).
    destruct (dict_row_ok N D d (Some C) None eps eps rs HS H0 HV) as (ns & HV' & _ & E3).
    exists ((a, (routes_cost D ns, length ns, encode ns)) :: rows). split.
    + exists (Nat.max f1 f2). intros fuel Hf. cbn [dict_rows app]. rewrite E1 by lia. rewrite E3. now rewrite E2 by lia.
    + constructor; [exists ns; auto|exact IH].
Qed.

Lemma dict_any {A} x C eps (call : A -> Z -> bool -> nat -> option algo_outcome) algos : consistent x C -> solvable x C eps ->
  Forall (fun a => exists rs, serves (dd_N x) (dd_D x) (dd_d x) (Some C) None eps eps rs /\ settles (call a C) (Returns (Some (encode rs)))) algos ->
  exists rows, ends_with (solve_from_data_dict x call algos) (rows, Finished) /\
  Forall2 (good_row (dd_N x) (dd_D x) (dd_d x) C eps) algos rows.
Proof.
  intros HC HS HF. pose proof (dict_problem x C eps HC HS) as HP.
  destruct (dict_rows_any (dd_N x) (dd_D x) (dd_d x) C eps (fun a => call a C) algos [] Finished) as (rows & (f & E) & H); [apply HP..|exact HF| |].
  - exists 0%nat. reflexivity.
  - rewrite app_nil_r in E. exists rows. split; [|exact H]. exists f. intros fuel Hf. unfold solve_from_data_dict.
    rewrite (proj2 (convert_spec x C) HC). now apply E.
Qed.

Lemma dict_stops {A} x C eps (call : A -> Z -> bool -> nat -> option algo_outcome) before a after o : consistent x C -> solvable x C eps ->
  Forall (fun a => exists rs, serves (dd_N x) (dd_D x) (dd_d x) (Some C) None eps eps rs /\ settles (call a C) (Returns (Some (encode rs)))) before ->
  settles (call a C) o -> (forall sol, o <> Returns (Some sol)) ->
  exists rows, ends_with (solve_from_data_dict x call (before ++ a :: after)) (rows, Failed) /\
  Forall2 (good_row (dd_N x) (dd_D x) (dd_d x) C eps) before rows.
Proof.
  intros HC HS HF Ho HN. pose proof (dict_problem x C eps HC HS) as HP.
  destruct (dict_rows_any (dd_N x) (dd_D x) (dd_d x) C eps (fun a => call a C) before (a :: after) Failed) as (rows & (f & E) & H); [apply HP..|exact HF| |].
  - apply dict_attempt_settles in Ho as (f & E). exists f. intros fuel Hf. cbn [dict_rows]. rewrite E by lia.
    destruct o as [[sol|]| |]; try reflexivity. exfalso. now apply (HN sol).
  - exists rows. split; [|exact H]. exists f. intros fuel Hf. unfold solve_from_data_dict.
    rewrite (proj2 (convert_spec x C) HC). now apply E.
Qed.

Lemma refuses_dec h : {refuses_minimize_K h} + {~ refuses_minimize_K h}.
Proof. unfold refuses_minimize_K. destruct h; try (left; tauto); right; intros [?|[?|[?|?]]]; discriminate. Qed.

Lemma call_settles h s eps N D d C : Spec_all.problem N D d (Some C) None eps -> fits h s N D d (Some C) None ->
  exists rs, serves N D d (Some C) None eps eps rs /\
  settles (call_init h s eps N D d (Some C) None false) (Returns (Some (encode rs))).
Proof.
  intros HP HF. destruct (refuses_dec h) as [Hr|Hr].
  - destruct (calls_end s eps N D d (Some C) None HP h false false HF (or_introl eq_refl)) as (rs & HS & E).
    exists rs. split; [exact HS|]. right. exists Raises. split; [discriminate|]. split; [|exact E]. exists 0%nat. intros fuel _. now apply calls_refuse.
  - destruct (calls_end s eps N D d (Some C) None HP h false true HF (or_intror Hr)) as (rs & HS & E).
    exists rs. split; [exact HS|]. left. eauto.
Qed.

Lemma dict_solved x C eps s hs : consistent x C -> solvable x C eps ->
  Forall (fun h => fits h s (dd_N x) (dd_D x) (dd_d x) (Some C) None) hs ->
  exists rows, ends_with (solve_from_data_dict x (fun h C => call_init h s eps (dd_N x) (dd_D x) (dd_d x) (Some C) None false) hs) (rows, Finished) /\
  Forall2 (good_row (dd_N x) (dd_D x) (dd_d x) C eps) hs rows.
Proof.
  intros HC HS HF. apply dict_any; auto. eapply Forall_impl; [|exact HF]. intros h Hh. apply call_settles; [now apply dict_problem|exact Hh].
Qed.

Lemma dict_refused {A} x (call : A -> Z -> bool -> nat -> option algo_outcome) : (forall C, ~ consistent x C) ->
  forall algos fuel, solve_from_data_dict x call algos fuel = Some ([], Failed).
Proof.
  intros H algos fuel. unfold solve_from_data_dict. destruct (convert x) as [C|] eqn:E; [|reflexivity].
  apply convert_spec in E. now apply H in E.
Qed.
