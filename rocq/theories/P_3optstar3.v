(** * Proofs about 3-opt*: the cached tables *)
From Coq Require Import ZifyBool ZifyNat.
From Verif Require Import Spec Spec_inter PyBase M_util M_psavings M_3optstar P_base P_util P_intra P_3optstar P_3optstar2.

(** Ends of a piece. *)
Definition fst_ (c : chunk) : nat := match c with Cl s => hd 0%nat s | Op l _ _ => hd 0%nat l end.
Definition lst_ (c : chunk) : nat := match c with Cl s => last s 0%nat | Op _ _ r => last r 0%nat end.
Definition lpart (c : chunk) : list nat := match c with Cl s => s | Op l _ _ => l end.
Definition rpart (c : chunk) : list nat := match c with Cl s => s | Op _ _ r => r end.
Definition lcost (D : matrix) (c : chunk) : Z := match c with Cl s => path_cost D s | Op l _ _ => path_cost D (l ++ [0%nat]) end.
Definition rcost (D : matrix) (c : chunk) : Z := match c with Cl s => path_cost D s | Op _ _ r => path_cost D (0%nat :: r) end.
Definition solid (c : chunk) : Prop := match c with Cl s => s <> [] | Op _ _ _ => True end.

Definition lext (c : chunk) (p : list nat) : list nat := match c with Cl s => s ++ p | Op l _ _ => l end.
Definition rext (p : list nat) (c : chunk) : list nat := match c with Cl s => p ++ s | Op _ _ r => r end.
Lemma lext_form c p R : exists R', nodes c ++ p ++ encode R = lext c p ++ encode R'.
Proof.
  destruct c as [s|l rs r]; cbn [nodes lext].
  - exists R. now rewrite <- app_assoc.
  - exists (rs ++ [r ++ p] ++ R). rewrite <- !app_assoc. f_equal.
    rewrite <- (app_nil_r (encode (rs ++ [r ++ p] ++ R))), <- encode_mid, app_nil_r, <- app_assoc. reflexivity.
Qed.
Lemma rext_form R p c : exists R', (encode R ++ p) ++ nodes c = encode R' ++ rext p c.
Proof.
  destruct c as [s|l rs r]; cbn [nodes rext].
  - exists R. now rewrite <- app_assoc.
  - exists (R ++ [p ++ l] ++ rs). rewrite <- encode_mid, <- !app_assoc. reflexivity.
Qed.
Lemma wfc_lext c p : wfc c -> customers_only p -> customers_only (lext c p).
Proof. destruct c; cbn [wfc lext]; [apply customers_app2|tauto]. Qed.
Lemma wfc_rext c p : wfc c -> customers_only p -> customers_only (rext p c).
Proof. destruct c; cbn [wfc rext]; [|tauto]. intros; now apply customers_app2. Qed.

Lemma run_demand d p : forall prev, run (fun _ n => d n) prev p = demand d p.
Proof. induction p as [|x p IH]; intros prev; [reflexivity|]. cbn [run]. rewrite IH, demand_cons. reflexivity. Qed.
Lemma run_path D p : forall prev, run D prev p = path_cost D (prev :: p).
Proof. induction p as [|x p IH]; intros prev; [reflexivity|]. cbn [run]. rewrite IH, path_cost_cons2. reflexivity. Qed.
Lemma run_rev_path D p : symmetric D -> run D 0%nat (rev p) = path_cost D (p ++ [0%nat]).
Proof. intros H. rewrite run_path, <- (path_cost_rev D (p ++ [0%nat]) H), rev_app_distr. reflexivity. Qed.

Lemma diff_left D q z l : symmetric D -> run D 0%nat (rev ((q ++ [z]) ++ l)) - run D 0%nat (rev (z :: l)) = path_cost D (q ++ [z]).
Proof.
  intros H. rewrite <- app_assoc. cbn [app]. rewrite rev_app_distr, run_app, (run_path D (rev q)).
  replace (last (rev (z :: l)) 0%nat) with z by (cbn [rev]; now rewrite last_last).
  rewrite <- (path_cost_rev D (q ++ [z]) H), rev_app_distr. cbn [rev app]. lia.
Qed.
Lemma diff_right D z q l : run D 0%nat (l ++ z :: q) - run D 0%nat (l ++ [z]) = path_cost D (z :: q).
Proof. replace (l ++ z :: q) with ((l ++ [z]) ++ q) by now rewrite <- app_assoc. rewrite run_app, last_last, (run_path D q). lia. Qed.

Section Tables.
  Variables (ra re : list (list nat)) (pa pe : list nat) (B C : chunk) (i j k : nat).
  Hypothesis Hpa : customers_only pa.
  Hypothesis Hpe : customers_only pe.
  Hypothesis WB : wfc B.
  Hypothesis WC : wfc C.
  Hypothesis SB : solid B.
  Hypothesis SC : solid C.
  Let a := encode ra ++ pa.
  Let b := nodes B.
  Let c := nodes C.
  Let e := pe ++ encode re.
  Hypothesis Li : (S i = length a)%nat.
  Hypothesis Lj : (S j = length a + length b)%nat.
  Hypothesis Lk : (S k = length a + length b + length c)%nat.
  Let sol := a ++ b ++ c ++ e.

  Lemma ld12_eq : ldepot sol (i + 1) j = if is_op B then Some (length a + pre_len B)%nat else None.
  Proof. unfold sol, b. apply ldepot_chunk; [exact WB|lia|fold b; lia]. Qed.
  Lemma rd12_eq : option_map S (rdepot sol (i + 1) j) = if is_op B then Some (length a + upto_len B)%nat else None.
  Proof. unfold sol, b. apply rdepot_chunk; [exact WB|lia|fold b; lia]. Qed.
  Lemma ld34_eq : ldepot sol (j + 1) k = if is_op C then Some (length a + length b + pre_len C)%nat else None.
  Proof. unfold sol. rewrite app_assoc, <- app_length. unfold c. apply ldepot_chunk; [exact WC|rewrite app_length; lia|rewrite app_length; fold c; lia]. Qed.
  Lemma rd34_eq : option_map S (rdepot sol (j + 1) k) = if is_op C then Some (length a + length b + upto_len C)%nat else None.
  Proof. unfold sol. rewrite app_assoc, <- app_length. unfold c. apply rdepot_chunk; [exact WC|rewrite app_length; lia|rewrite app_length; fold c; lia]. Qed.

  Lemma sol_ab : exists R, a ++ b = encode R ++ rext pa B.
  Proof. apply rext_form. Qed.
  Lemma sol_abc : exists R, (a ++ b) ++ c = encode R ++ rext (rext pa B) C.
  Proof. destruct sol_ab as (R & ->). apply rext_form. Qed.
  Lemma sol_ce : exists R, c ++ e = lext C pe ++ encode R.
  Proof. apply lext_form. Qed.
  Lemma sol_bce : exists R, b ++ c ++ e = lext B (lext C pe) ++ encode R.
  Proof. destruct sol_ce as (R & ->). apply lext_form. Qed.

  Lemma f_i f : nth i (sol_fwd f sol) 0 = run f 0%nat pa.
  Proof. replace i with (length a - 1)%nat by lia. unfold sol, a. now apply fwd_prefix. Qed.
  Lemma f_j f : nth j (sol_fwd f sol) 0 = run f 0%nat (rext pa B).
  Proof.
    destruct sol_ab as (R & E). replace j with (length (a ++ b) - 1)%nat by (rewrite app_length; lia). unfold sol. rewrite app_assoc, E.
    apply fwd_prefix. now apply wfc_rext.
  Qed.
  Lemma f_k f : nth k (sol_fwd f sol) 0 = run f 0%nat (rext (rext pa B) C).
  Proof.
    destruct sol_abc as (R & E). replace k with (length ((a ++ b) ++ c) - 1)%nat by (rewrite !app_length; lia). unfold sol. rewrite !app_assoc, E.
    apply fwd_prefix. apply wfc_rext; [assumption|now apply wfc_rext].
  Qed.
  Lemma r_k1 f : nth (k + 1) (sol_rwd f sol) 0 = run f 0%nat (rev pe).
  Proof. replace (k + 1)%nat with (length ((a ++ b) ++ c)) by (rewrite !app_length; lia). unfold sol, e. rewrite !app_assoc, <- (app_assoc _ pe). now apply rwd_suffix. Qed.
  Lemma r_j1 f : nth (j + 1) (sol_rwd f sol) 0 = run f 0%nat (rev (lext C pe)).
  Proof.
    destruct sol_ce as (R & E). replace (j + 1)%nat with (length (a ++ b)) by (rewrite !app_length; lia). unfold sol. rewrite !app_assoc, <- (app_assoc _ c), E.
    apply rwd_suffix. now apply wfc_lext.
  Qed.
  Lemma r_i1 f : nth (i + 1) (sol_rwd f sol) 0 = run f 0%nat (rev (lext B (lext C pe))).
  Proof.
    destruct sol_bce as (R & E). replace (i + 1)%nat with (length a) by lia. unfold sol. rewrite E.
    apply rwd_suffix. apply wfc_lext; [assumption|now apply wfc_lext].
  Qed.
  (** Positions inside a closed piece. *)
  Lemma f_i1 f z q : B = Cl (z :: q) -> nth (i + 1) (sol_fwd f sol) 0 = run f 0%nat (pa ++ [z]).
  Proof.
    intros E. replace (i + 1)%nat with (length (encode ra ++ (pa ++ [z])) - 1)%nat.
    - replace sol with ((encode ra ++ (pa ++ [z])) ++ q ++ c ++ e) by (unfold sol, b, a; rewrite E; cbn [nodes]; now rewrite <- !app_assoc).
      apply fwd_prefix. apply customers_app2; [assumption|]. rewrite E in WB. constructor; [exact (Forall_inv WB)|constructor].
    - rewrite app_assoc, app_length. cbn [length]. fold a. lia.
  Qed.
  Lemma f_j1 f z q : C = Cl (z :: q) -> nth (j + 1) (sol_fwd f sol) 0 = run f 0%nat (rext pa B ++ [z]).
  Proof.
    intros E. destruct sol_ab as (R & ER). replace (j + 1)%nat with (length (encode R ++ (rext pa B ++ [z])) - 1)%nat.
    - replace sol with ((encode R ++ (rext pa B ++ [z])) ++ q ++ e).
      + apply fwd_prefix. apply customers_app2; [now apply wfc_rext|]. rewrite E in WC. constructor; [exact (Forall_inv WC)|constructor].
      + rewrite (app_assoc (encode R)), <- ER. unfold sol, c. rewrite E. cbn [nodes]. now rewrite <- !app_assoc.
    - rewrite app_assoc, <- ER, !app_length. cbn [length]. lia.
  Qed.
  Lemma r_j f q z : B = Cl (q ++ [z]) -> nth j (sol_rwd f sol) 0 = run f 0%nat (rev (z :: lext C pe)).
  Proof.
    intros E. destruct sol_ce as (R & ER). assert (Lb : length b = (length q + 1)%nat) by (unfold b; rewrite E; cbn [nodes]; now rewrite app_length).
    replace j with (length (a ++ q)) by (rewrite app_length; lia).
    replace sol with ((a ++ q) ++ (z :: lext C pe) ++ encode R).
    - apply rwd_suffix. rewrite E in WB. apply Forall_app in WB. destruct WB as (_ & Wz). constructor; [exact (Forall_inv Wz)|now apply wfc_lext].
    - cbn [app]. rewrite <- ER. unfold sol, b. rewrite E. cbn [nodes]. now rewrite <- !app_assoc.
  Qed.
  Lemma r_k f q z : C = Cl (q ++ [z]) -> nth k (sol_rwd f sol) 0 = run f 0%nat (rev (z :: pe)).
  Proof.
    intros E. assert (Lc : length c = (length q + 1)%nat) by (unfold c; rewrite E; cbn [nodes]; now rewrite app_length).
    replace k with (length (a ++ b ++ q)) by (rewrite !app_length; lia).
    replace sol with ((a ++ b ++ q) ++ (z :: pe) ++ encode re).
    - apply rwd_suffix. rewrite E in WC. apply Forall_app in WC. destruct WC as (_ & Wz). constructor; [exact (Forall_inv Wz)|assumption].
    - unfold sol, c, e. rewrite E. cbn [nodes app]. now rewrite <- !app_assoc.
  Qed.

  Lemma cum_d_eq d : cum_d_tab d sol i j k =
    tab [demand d pa; demand d (lpart B); demand d (rpart B); demand d (lpart C); demand d (rpart C); demand d pe] 0.
  Proof.
    unfold cum_d_tab. rewrite ld12_eq, ld34_eq, f_i, f_j, f_k, r_k1, r_j1, r_i1. rewrite !run_demand, !demand_rev.
    f_equal. f_equal. destruct B, C; cbn [is_op or_zero lext rext lpart rpart]; rewrite ?demand_app; repeat (f_equal; try lia).
  Qed.
  Lemma cum_l_eq D : symmetric D -> cum_l_tab D sol i j k =
    tab [path_cost D (0%nat :: pa); lcost D B; rcost D B; lcost D C; rcost D C; path_cost D (pe ++ [0%nat])] 0.
  Proof.
    intros HD. unfold cum_l_tab. rewrite ld12_eq, ld34_eq, f_i, f_j, f_k, r_k1, r_j1, r_i1.
    assert (E1 : forall X, B = X -> run D 0%nat (rev (lext X (lext C pe))) - or_zero (if is_op X then Some (length a + pre_len X)%nat else None) (nth j (sol_rwd D sol) 0) = lcost D X).
    { pose proof SB as SX. intros X EX. rewrite EX in SX. destruct X as [s|l rs r]; cbn [is_op or_zero lext lcost].
      - destruct s as [|z s _] using rev_ind; [easy|]. rewrite (r_j D s z EX). now apply diff_left.
      - rewrite run_rev_path by exact HD. lia. }
    assert (E2 : forall X, B = X -> run D 0%nat (rext pa X) - or_zero (if is_op X then Some (length a + pre_len X)%nat else None) (nth (i + 1) (sol_fwd D sol) 0) = rcost D X).
    { pose proof SB as SX. intros X EX. rewrite EX in SX. destruct X as [s|l rs r]; cbn [is_op or_zero rext rcost].
      - destruct s as [|z s]; [easy|]. rewrite (f_i1 D z s EX). apply diff_right.
      - rewrite run_path. lia. }
    assert (E3 : forall X, C = X -> run D 0%nat (rev (lext X pe)) - or_zero (if is_op X then Some (length a + length b + pre_len X)%nat else None) (nth k (sol_rwd D sol) 0) = lcost D X).
    { pose proof SC as SX. intros X EX. rewrite EX in SX. destruct X as [s|l rs r]; cbn [is_op or_zero lext lcost].
      - destruct s as [|z s _] using rev_ind; [easy|]. rewrite (r_k D s z EX). now apply diff_left.
      - rewrite run_rev_path by exact HD. lia. }
    assert (E4 : forall X, C = X -> run D 0%nat (rext (rext pa B) X) - or_zero (if is_op X then Some (length a + length b + pre_len X)%nat else None) (nth (j + 1) (sol_fwd D sol) 0) = rcost D X).
    { pose proof SC as SX. intros X EX. rewrite EX in SX. destruct X as [s|l rs r]; cbn [is_op or_zero rext rcost].
      - destruct s as [|z s]; [easy|]. rewrite (f_j1 D z s EX). apply diff_right.
      - rewrite run_path. lia. }
    rewrite (E1 B eq_refl), (E2 B eq_refl), (E3 C eq_refl), (E4 C eq_refl), run_path, run_rev_path by exact HD. reflexivity.
  Qed.

  Lemma nodes_ne c0 : solid c0 -> nodes c0 <> [].
  Proof. destruct c0 as [s|l rs r]; cbn [solid nodes]; [easy|]. intros _. destruct l; discriminate. Qed.
  Lemma hd_nodes c0 x : solid c0 -> hd 0%nat (nodes c0 ++ x) = fst_ c0.
  Proof. destruct c0 as [s|l rs r]; cbn [solid nodes fst_]; [now destruct s|]. intros _. destruct l; reflexivity. Qed.
  Lemma last_nodes x c0 : solid c0 -> last (x ++ nodes c0) 0%nat = lst_ c0.
  Proof.
    intros H. rewrite last_app_ne by now apply nodes_ne. destruct c0 as [s|l rs r]; cbn [solid nodes lst_]; [reflexivity|].
    rewrite last_app_ne by discriminate. destruct r as [|y r]; [now rewrite app_nil_r, last_encode|]. now rewrite last_app_ne.
  Qed.
  Lemma n_tab : forall x, at_ sol (end_p i j k x) =
    tab [last pa 0%nat; fst_ B; lst_ B; fst_ C; lst_ C; hd 0%nat pe] (last pa 0%nat) x \/ (6 <= x)%nat.
  Proof.
    assert (H0 : at_ sol i = last pa 0%nat).
    { unfold sol. rewrite at_last; [|unfold a; destruct (encode ra) eqn:E; [discriminate|discriminate]|lia].
      unfold a. destruct pa; [now rewrite app_nil_r, last_encode|]. now rewrite last_app_ne. }
    assert (H1 : at_ sol (i + 1) = fst_ B).
    { unfold sol. rewrite (at_hd a) by lia. unfold b. now apply hd_nodes. }
    assert (H2 : at_ sol j = lst_ B).
    { unfold sol. rewrite app_assoc. rewrite at_last; [unfold b; now apply last_nodes| |rewrite app_length; lia].
      intros E. apply app_eq_nil in E. destruct E as (_ & E). now apply nodes_ne in E. }
    assert (H3 : at_ sol (j + 1) = fst_ C).
    { unfold sol. rewrite app_assoc. rewrite (at_hd (a ++ b)) by (rewrite app_length; lia). unfold c. now apply hd_nodes. }
    assert (H4 : at_ sol k = lst_ C).
    { unfold sol. rewrite !app_assoc. rewrite at_last; [unfold c; now apply last_nodes| |rewrite !app_length; lia].
      intros E. apply app_eq_nil in E. destruct E as (_ & E). now apply nodes_ne in E. }
    assert (H5 : at_ sol (k + 1) = hd 0%nat pe).
    { unfold sol. rewrite !app_assoc. rewrite at_hd by (rewrite !app_length; lia). unfold e. destruct pe; reflexivity. }
    intros x. do 6 (destruct x as [|x]; [left; assumption|]). right. lia.
  Qed.
End Tables.
