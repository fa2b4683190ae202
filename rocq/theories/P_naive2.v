(** * The naive local search: 2-opt, one point and two point moves *)
From Verif Require Import Spec Spec_ls Spec_inter PyBase M_util M_intra M_naive Spec_naive P_base P_scan P_intra P_naive.
From Coq Require Import ZifyBool ZifyNat Lia Arith List Permutation.
Import ListNotations.
Local Open Scope Z_scope.

(** ** 2-opt *)
Section TwoOpt.
Variables (eps : Z) (D : matrix) (first : bool) (sol : list nat).
Definition cands2 (p : nat) (r : list nat) : list (Z * list nat) :=
  flat_map (fun a => flat_map (fun c => [(objf (reverse_part sol a c) D - objf sol D, reverse_part sol a c)]) (range (a + 2) (p + 1 + length r))) (range p (p + 1 + length r)).
Fixpoint cands2_rest (p : nat) (rs : list (list nat)) : list (Z * list nat) :=
  match rs with [] => [] | r :: rs' => cands2 p r ++ cands2_rest (p + 1 + length r) rs' end.

Lemma next_depot_route : forall r t e, customers_only r -> next_depot (r ++ 0%nat :: t) e = Some (e + length r)%nat.
Proof.
  induction r as [|x r IH]; intros t e H; cbn [app next_depot length]; [cbn; f_equal; lia|]. inversion H as [|? ? Hx Hr]; subst.
  replace (Nat.eqb x 0) with false by (symmetry; apply Nat.eqb_neq; assumption). rewrite IH by assumption. f_equal. lia.
Qed.
Lemma skip_pre (pre rest : list nat) : skipn (length pre + 1) (pre ++ 0%nat :: rest) = rest.
Proof. rewrite skipn_app, (skipn_all2 pre) by lia. replace (length pre + 1 - length pre)%nat with 1%nat by lia. reflexivity. Qed.
Lemma cands2_scan p r s :
  for_break (range p (p + 1 + length r)) (fun a s => for_break (range (a + 2) (p + 1 + length r)) (fun c s =>
    try_move eps first (objf (reverse_part sol a c) D - objf sol D) (reverse_part sol a c) s) s) s = scan eps first (cands2 p r) s.
Proof.
  unfold cands2. rewrite <- scan_flat. apply for_break_ext. intros a s0 _. rewrite <- scan_flat. apply for_break_ext. intros c s1 _. symmetry. apply scan_one.
Qed.
Lemma routes_scan : forall rs pre fuel s, Forall customers_only rs -> sol = pre ++ encode rs -> (length rs < fuel)%nat ->
  opt2_routes eps D first sol fuel (length pre) (length pre + 1) s = Some (fst (scan eps first (cands2_rest (length pre) rs) s)).
Proof.
  induction rs as [|r rs IH]; intros pre fuel s H E Hf; (destruct fuel as [|fuel]; [cbn in Hf; lia|]); cbn [opt2_routes].
  - replace (length pre + 1 <? length sol)%nat with false by (symmetry; apply Nat.ltb_ge; rewrite E, app_length; cbn; lia). reflexivity.
  - inversion H as [|? ? H1 H2]; subst. rewrite encode_cons in E.
    replace (length pre + 1 <? length sol)%nat with true.
    2: { symmetry. apply Nat.ltb_lt. rewrite E, app_length. cbn [length]. rewrite app_length. cbn [encode length]. lia. }
    replace (skipn (length pre + 1) sol) with (r ++ encode rs) by (rewrite E; symmetry; apply skip_pre).
    unfold encode at 1. rewrite next_depot_route by assumption.
    cbv zeta. rewrite (cands2_scan (length pre) r s). cbn [cands2_rest]. rewrite scan_app.
    destruct (scan eps first (cands2 (length pre) r) s) as [s' [|]]; [reflexivity|].
    replace (length pre + 1 + length r)%nat with (length (pre ++ 0%nat :: r)) by (rewrite app_length; cbn; lia).
    apply IH; [assumption| |cbn in Hf; lia]. rewrite E, <- app_assoc. reflexivity.
Qed.

Lemma in_rest : forall rs pre dl m, sol = pre ++ encode rs -> Forall customers_only rs ->
  (In (dl, m) (cands2_rest (length pre) rs) <->
   exists a c, (length pre <= a /\ a + 2 <= c /\ c + 1 < length sol)%nat /\ (forall k, (a < k <= c)%nat -> at_ sol k <> 0%nat) /\
     m = reverse_part sol a c /\ dl = objf m D - objf sol D).
Proof.
  induction rs as [|r rs IH]; intros pre dl m E H.
  - split; [intros []|]. intros (a & c & Hac & _). rewrite E, app_length in Hac. cbn in Hac. lia.
  - inversion H as [|? ? H1 H2]; subst. rewrite encode_cons in E. cbn [cands2_rest]. rewrite in_app_iff.
    set (e := (length pre + 1 + length r)%nat). assert (Ep : e = length (pre ++ 0%nat :: r)) by (unfold e; rewrite app_length; cbn; lia).
    assert (E' : sol = (pre ++ 0%nat :: r) ++ encode rs) by (rewrite E, <- app_assoc; reflexivity).
    rewrite Ep, (IH _ dl m E' H2), <- Ep.
    assert (Ze : at_ sol e = 0%nat) by (unfold at_; rewrite E', Ep, app_nth2, Nat.sub_diag by lia; reflexivity).
    assert (Hlen : (e < length sol)%nat) by (rewrite E', app_length, <- Ep; cbn [encode length]; lia).
    assert (Hin : forall k, (length pre < k < e)%nat -> at_ sol k <> 0%nat).
    { intros k Hk. unfold at_. rewrite E', app_nth1 by lia. rewrite app_nth2 by lia.
      replace (k - length pre)%nat with (S (k - length pre - 1)) by lia. cbn [nth]. unfold customers_only in H1. rewrite Forall_forall in H1. apply H1, nth_In. unfold e in Hk. lia. }
    split.
    + intros [Hc|(a & c & A & B & F)].
      * unfold cands2 in Hc. apply in_flat_map in Hc. destruct Hc as (a & Ha & Hc). apply in_flat_map in Hc. destruct Hc as (c & Hc & [X|[]]).
        rewrite in_range in Ha, Hc. injection X as <- <-. exists a, c. split; [fold e in Ha, Hc; lia|]. split; [|auto]. intros k Hk. apply Hin. fold e in Hc. lia.
      * exists a, c. split; [lia|]. auto.
    + intros (a & c & A & B & -> & ->). destruct (Nat.lt_ge_cases a e) as [Hae|Hae].
      * left. assert (c < e)%nat. { destruct (Nat.lt_ge_cases c e); [assumption|]. exfalso. apply (B e); [lia|exact Ze]. }
        unfold cands2. apply in_flat_map. exists a. split; [apply in_range; fold e; lia|]. apply in_flat_map. exists c. split; [apply in_range; fold e; lia|left; reflexivity].
      * right. exists a, c. split; [lia|]. auto.
Qed.
End TwoOpt.

Lemma reverse_pieces (l1 l2 l3 : list nat) : l1 <> [] ->
  reverse_part (l1 ++ l2 ++ l3) (length l1 - 1) (length l1 + length l2 - 1) = l1 ++ rev l2 ++ l3.
Proof.
  intros H. pose proof (ne_len _ H) as Hl. unfold reverse_part, slice_to, slice_from, rslice, slice.
  replace (length l1 - 1 + 1)%nat with (length l1) by lia. destruct l2 as [|y l2].
  - cbn [length app]. rewrite Nat.add_0_r. replace (length l1 - 1 + 1)%nat with (length l1) by lia. rewrite Nat.sub_diag. cbn [firstn rev app].
    rewrite firstn_app, Nat.sub_diag, firstn_all, firstn_O, app_nil_r, skipn_app, skipn_all, Nat.sub_diag. reflexivity.
  - set (l2' := y :: l2). assert (Hl2 : (1 <= length l2')%nat) by (unfold l2'; cbn; lia). clearbody l2'.
    replace (length l1 + length l2' - 1 + 1)%nat with (length l1 + length l2')%nat by lia.
    replace (length l1 + length l2' - length l1)%nat with (length l2') by lia.
    rewrite firstn_app, Nat.sub_diag, firstn_all, firstn_O, app_nil_r, skipn_app, skipn_all, Nat.sub_diag. cbn [app skipn].
    rewrite firstn_app, Nat.sub_diag, firstn_all, firstn_O, app_nil_r. f_equal. f_equal.
    rewrite app_assoc, skipn_app, skipn_all2 by (rewrite app_length; lia). rewrite app_length, Nat.sub_diag. reflexivity.
Qed.
Lemma encode_longer rs : (length rs < length (encode rs))%nat.
Proof. induction rs as [|r rs IH]; [cbn; lia|]. rewrite encode_cons. cbn [length]. rewrite app_length. lia. Qed.
Lemma encode_not_nil rs : encode rs <> [].
Proof. discriminate. Qed.

Lemma two_opt_contract eps D first rs best_delta : 0 <= eps -> start_delta best_delta <= 0 -> Forall customers_only rs ->
  exists res, answered (do_naive_2opt_move eps D first (encode rs) best_delta) res /\
    finds_improvement (path_cost D) (reversed_part (encode rs)) (path_cost D (encode rs)) (start_delta best_delta) eps (negb first) res.
Proof.
  intros He Hb H. unfold do_naive_2opt_move. pose proof (routes_scan eps D first (encode rs) rs [] (length (encode rs)) (None, start_delta best_delta) H eq_refl (encode_longer rs)) as E.
  cbn [length Nat.add] in E. rewrite E. clear E. apply scan_answer; [assumption..| |].
  - intros dl m Hin. apply (in_rest eps D (encode rs) rs [] dl m eq_refl H) in Hin. destruct Hin as (a & c & (_ & A1 & A2) & B & -> & ->). rewrite !objf_path. split; [reflexivity|].
    destruct (split_at (encode rs) (a + 1)) as (l1 & q & Eq & Hl1); [lia|]. assert (Hq := f_equal (@length nat) Eq). rewrite app_length in Hq.
    destruct (split_at q (c - a)) as (l2 & l3 & -> & Hl2); [lia|]. assert (N1 : l1 <> []) by (apply len_ne; lia).
    rewrite Eq. replace a with (length l1 - 1)%nat by lia. replace c with (length l1 + length l2 - 1)%nat by lia. rewrite reverse_pieces by assumption.
    split; [left; exists l1, l2, l3; split; [reflexivity|split; [reflexivity|]]|destruct l1; [congruence|discriminate]].
    apply Forall_forall. intros x Hx. destruct (In_nth l2 x 0%nat Hx) as (k & Hk & <-). specialize (B (length l1 + k)%nat). unfold at_ in B. rewrite Eq in B.
    rewrite app_nth2, (Nat.add_comm (length l1) k), Nat.add_sub, app_nth1 in B by lia. apply B. lia.
  - intros s (l1 & l2 & l3 & E1 & -> & HC). destruct (le_lt_dec 2 (length l2)) as [H2|H2].
    + right. exists (objf (l1 ++ rev l2 ++ l3) D - objf (encode rs) D), (l1 ++ rev l2 ++ l3). rewrite <- !objf_path. split; [|reflexivity].
      assert (N1 : l1 <> []). { intros ->. destruct l2 as [|x l2]; [cbn in H2; lia|]. cbn in E1. injection E1 as <- _. inversion HC; congruence. }
      assert (N3 : l3 <> []).
      { intros ->. pose proof (last_encode rs) as LE. rewrite E1, app_nil_r in LE. assert (N2 : l2 <> []) by (apply len_ne; lia).
        destruct (exists_last N2) as (q & x & ->). rewrite app_assoc, last_last in LE. apply Forall_app in HC. destruct HC as (_ & HC). inversion HC; congruence. }
      pose proof (ne_len _ N1). pose proof (ne_len _ N3).
      apply (in_rest eps D (encode rs) rs [] _ _ eq_refl H). exists (length l1 - 1)%nat, (length l1 + length l2 - 1)%nat.
      split; [rewrite E1, !app_length; cbn [length]; lia|]. split; [|split; [rewrite E1; symmetry; apply reverse_pieces; assumption|reflexivity]].
      intros k Hk. unfold at_. rewrite E1, app_nth2, app_nth1 by lia. unfold customers_only in HC. rewrite Forall_forall in HC. apply HC, nth_In. lia.
    + left. rewrite E1. do 2 f_equal. destruct l2 as [|x [|y l2]]; [reflexivity|reflexivity|cbn in H2; lia].
Qed.

(** ** One and two point moves *)
Section Points.
Variables (ceps eps : Z) (D : matrix) (d : demands) (C L : limit) (first : bool).
Hypothesis He : 0 <= eps.
Hypothesis HD : nonneg_matrix D.
Hypothesis Hd : forall n, 0 <= d n.
Hypothesis HC : within C ceps 0.
Notation check := (naive_constraint_check ceps eps D d C L).

Definition checked (sol z : list nat) : list (Z * list nat) := if check z then [(objf z D - objf sol D, z)] else [].
Lemma try_checked_scan sol z s : try_checked ceps eps D d C L first sol z s = scan eps first (checked sol z) s.
Proof. unfold try_checked, checked. destruct (check z); [symmetry; apply scan_one|reflexivity]. Qed.

Definition cands1p (sol : list nat) : list (Z * list nat) :=
  flat_map (fun n => if Nat.eqb n 0 then [] else flat_map (fun j => checked sol (insert_node j n (remove_first n sol))) (range 1 (length sol - 1))) sol.
Lemma one_point_scan sol best_delta :
  do_naive_1point_move ceps eps D d C L first sol best_delta = answer (fst (scan eps first (cands1p sol) (None, start_delta best_delta))).
Proof.
  unfold do_naive_1point_move, cands1p. rewrite <- scan_flat. f_equal. f_equal. apply for_break_ext. intros n s _.
  destruct (Nat.eqb n 0); [reflexivity|]. rewrite <- scan_flat. apply for_break_ext. intros j s' _. apply try_checked_scan.
Qed.
Definition cands2p (sol : list nat) : list (Z * list nat) :=
  flat_map (fun i => if Nat.eqb (at_ sol i) 0 then [] else flat_map (fun j => if Nat.eqb (at_ sol j) 0 then [] else checked sol (swap_nodes sol i j)) (range 1 (length sol - 1))) (range 0 (length sol)).
Lemma two_point_scan sol best_delta :
  do_naive_2point_move ceps eps D d C L first sol best_delta = answer (fst (scan eps first (cands2p sol) (None, start_delta best_delta))).
Proof.
  unfold do_naive_2point_move, cands2p. rewrite <- scan_flat. f_equal. f_equal. apply for_break_ext. intros i s _.
  destruct (Nat.eqb (at_ sol i) 0); [reflexivity|]. rewrite <- scan_flat. apply for_break_ext. intros j s' _. destruct (Nat.eqb (at_ sol j) 0); [reflexivity|]. apply try_checked_scan.
Qed.

Lemma remove_first_split n l : In n l -> exists l1 l2, l = l1 ++ n :: l2 /\ ~ In n l1 /\ remove_first n l = l1 ++ l2.
Proof.
  induction l as [|x l IH]; intros H; [destruct H|]. cbn [remove_first]. destruct (Nat.eqb_spec n x) as [->|Hn].
  - exists [], l. auto.
  - destruct H as [H|H]; [congruence|]. destruct (IH H) as (l1 & l2 & -> & H1 & ->). exists (x :: l1), l2. split; [reflexivity|]. split; [intros [X|X]; [congruence|contradiction]|reflexivity].
Qed.
Lemma remove_first_app n l1 l2 : ~ In n l1 -> remove_first n (l1 ++ n :: l2) = l1 ++ l2.
Proof.
  induction l1 as [|x l1 IH]; intros H; cbn [app remove_first]; [rewrite Nat.eqb_refl; reflexivity|]. destruct (Nat.eqb_spec n x) as [->|Hn]; [destruct H; left; reflexivity|].
  rewrite IH by (intros X; apply H; right; exact X). reflexivity.
Qed.
(** The moved list is between depots again *)
Lemma moved_ends rs s : moved_customer (encode rs) s -> exists rs', s = encode rs' /\ Forall customers_only rs'.
Proof.
  intros (l1 & n & l2 & l3 & l4 & Hn & E & E2 & H3 & H4 & ->).
  destruct (list_eq_dec (list_eq_dec Nat.eq_dec) rs []) as [->|Hr].
  { cbn in E. destruct l1 as [|x [|y l1]]; cbn in E; [injection E as E; congruence|discriminate|discriminate]. }
  destruct (encode_ends rs Hr) as (m & Em). rewrite Em in E. symmetry in E. destruct (mid_ends l1 l2 m n Hn E) as (a & b & -> & -> & _).
  assert (X : l3 ++ l4 = 0%nat :: (a ++ b) ++ [0%nat]) by (rewrite <- E2; cbn; rewrite app_assoc; reflexivity).
  destruct (ends_parts l3 l4 _ n H3 H4 X) as (m' & Em'). destruct (ends_encode m') as (rs' & F & E' & _). exists rs'. rewrite E'. auto.
Qed.
Lemma swapped_ends rs s : swapped_customers (encode rs) s -> exists rs', s = encode rs' /\ Forall customers_only rs'.
Proof.
  intros (l1 & a & l2 & b & l3 & Ha & Hb & E & ->).
  destruct (list_eq_dec (list_eq_dec Nat.eq_dec) rs []) as [->|Hr].
  { cbn in E. destruct l1 as [|x [|y l1]]; cbn in E; [injection E as E; congruence|discriminate|discriminate]. }
  destruct (encode_ends rs Hr) as (m & Em). rewrite Em in E. symmetry in E. destruct (mid_ends l1 (l2 ++ b :: l3) m a Ha E) as (p & q & -> & E2 & _).
  destruct (list_eq_dec Nat.eq_dec l3 []) as [->|H3]. { apply app_inj_tail in E2. destruct E2 as (_ & E2). congruence. }
  destruct (exists_last H3) as (u & y & ->). change (b :: u ++ [y]) with ((b :: u) ++ [y]) in E2. rewrite app_assoc in E2. apply app_inj_tail in E2. destruct E2 as (_ & ->).
  destruct (ends_encode (p ++ b :: l2 ++ a :: u)) as (rs' & F & E' & _). exists rs'. rewrite E'. split; [|exact F]. cbn [app]. f_equal. rewrite <- !app_assoc. cbn [app]. rewrite <- !app_assoc. reflexivity.
Qed.

Lemma in_checked sol z dl m : In (dl, m) (checked sol z) -> check z = true /\ m = z /\ dl = path_cost D z - path_cost D sol.
Proof. unfold checked. destruct (check z); [intros [X|[]]|intros []]. injection X as <- <-. rewrite !objf_path. auto. Qed.
Lemma checked_in sol z : check z = true -> In (path_cost D z - path_cost D sol, z) (checked sol z).
Proof. intros H. unfold checked. rewrite H, !objf_path. left. reflexivity. Qed.

Lemma nodup_split (l1 l2 : list nat) n : n <> 0%nat -> NoDup (customers (l1 ++ n :: l2)) -> ~ In n l1 /\ ~ In n l2.
Proof.
  unfold customers. rewrite filter_app. cbn [filter]. intros Hn H. replace (Nat.eqb n 0) with false in H by (symmetry; apply Nat.eqb_neq; assumption). cbn [negb] in H.
  apply NoDup_remove_2 in H. rewrite in_app_iff, !filter_In in H. assert (X : negb (Nat.eqb n 0) = true) by (destruct (Nat.eqb_spec n 0); [contradiction|reflexivity]). tauto.
Qed.

Lemma one_point_contract rs best_delta : start_delta best_delta <= 0 -> Forall customers_only rs -> NoDup (concat rs) ->
  exists res, answered (do_naive_1point_move ceps eps D d C L first (encode rs) best_delta) res /\
    finds_improvement (path_cost D) (fun s => moved_customer (encode rs) s /\ keeps_limits D d C L ceps eps s) (path_cost D (encode rs)) (start_delta best_delta) eps (negb first) res.
Proof.
  intros Hb H HN. rewrite one_point_scan. apply scan_answer; [assumption..| |].
  - intros dl m Hin. unfold cands1p in Hin. apply in_flat_map in Hin. destruct Hin as (n & Hn & Hin). destruct (Nat.eqb_spec n 0) as [E0|E0]; [destruct Hin|].
    apply in_flat_map in Hin. destruct Hin as (j & Hj & Hin). apply in_range in Hj. apply in_checked in Hin. destruct Hin as (Hc & -> & ->).
    destruct (remove_first_split n (encode rs) Hn) as (l1 & l2 & E & _ & Er). rewrite Er in *.
    assert (Hl : length (encode rs) = S (length (l1 ++ l2))) by (rewrite E, !app_length; cbn; lia).
    assert (HM : moved_customer (encode rs) (insert_node j n (l1 ++ l2))).
    { exists l1, n, l2, (firstn j (l1 ++ l2)), (skipn j (l1 ++ l2)). split; [exact E0|]. split; [exact E|]. split; [symmetry; apply firstn_skipn|].
      split; [|split; [|reflexivity]]; apply len_ne; [rewrite firstn_length|rewrite skipn_length]; lia. }
    split; [reflexivity|]. split.
    + left. split; [exact HM|]. apply (check_limits ceps eps D d C L HD Hd HC); [apply moved_ends with (1 := HM)|exact Hc].
    + unfold insert_node. destruct (firstn j (l1 ++ l2)); discriminate.
  - intros s (HM & HL). right. pose proof (moved_ends rs s HM) as HE. destruct HM as (l1 & n & l2 & l3 & l4 & Hn & E & E2 & H3 & H4 & Es).
    exists (path_cost D s - path_cost D (encode rs)), s. split; [|reflexivity].
    assert (HND : ~ In n l1). { apply (nodup_split l1 l2 n Hn). rewrite <- E, customers_encode by assumption. exact HN. }
    unfold cands1p. apply in_flat_map. exists n. split; [rewrite E; apply in_elt|]. replace (Nat.eqb n 0) with false by (symmetry; apply Nat.eqb_neq; assumption).
    apply in_flat_map. exists (length l3). pose proof (ne_len _ H3). pose proof (ne_len _ H4).
    assert (Hl : length (encode rs) = S (length l3 + length l4)) by (rewrite E, app_length, <- (app_length l3), <- E2, app_length; cbn; lia).
    split; [apply in_range; lia|]. assert (Er : remove_first n (encode rs) = l3 ++ l4) by (rewrite E, remove_first_app by assumption; exact E2). rewrite Er. unfold insert_node.
    rewrite firstn_app, Nat.sub_diag, firstn_all, firstn_O, app_nil_r, skipn_app, skipn_all, Nat.sub_diag. cbn [app skipn]. rewrite <- Es.
    apply checked_in. apply (check_limits ceps eps D d C L HD Hd HC); assumption.
Qed.

(** Swaps by position *)
Lemma swap_pieces (l1 l2 l3 : list nat) a b : swap_nodes (l1 ++ a :: l2 ++ b :: l3) (length l1) (length l1 + 1 + length l2) = l1 ++ b :: l2 ++ a :: l3.
Proof.
  unfold swap_nodes, at_. rewrite app_nth2, Nat.sub_diag by lia. cbn [nth].
  rewrite app_nth2 by lia. replace (length l1 + 1 + length l2 - length l1)%nat with (S (length l2)) by lia. cbn [nth].
  rewrite app_nth2, Nat.sub_diag by lia. cbn [nth].
  assert (S1 : forall (p : list nat) x y q, set_nth (length p) y (p ++ x :: q) = p ++ y :: q) by (induction p as [|z p IH]; intros x y q; cbn; [reflexivity|rewrite IH; reflexivity]).
  rewrite S1. replace (length l1 + 1 + length l2)%nat with (length (l1 ++ b :: l2)) by (rewrite app_length; cbn; lia).
  replace (l1 ++ b :: l2 ++ b :: l3) with ((l1 ++ b :: l2) ++ b :: l3) by (rewrite <- app_assoc; reflexivity). rewrite S1, <- app_assoc. reflexivity.
Qed.
Lemma swap_pieces2 (l1 l2 l3 : list nat) a b : swap_nodes (l1 ++ a :: l2 ++ b :: l3) (length l1 + 1 + length l2) (length l1) = l1 ++ b :: l2 ++ a :: l3.
Proof.
  unfold swap_nodes, at_. rewrite (app_nth2 l1 _ _ (n := length l1)), Nat.sub_diag by lia. cbn [nth].
  rewrite app_nth2 by lia. replace (length l1 + 1 + length l2 - length l1)%nat with (S (length l2)) by lia. cbn [nth].
  rewrite app_nth2, Nat.sub_diag by lia. cbn [nth].
  assert (S1 : forall (p : list nat) x y q, set_nth (length p) y (p ++ x :: q) = p ++ y :: q) by (induction p as [|z p IH]; intros x y q; cbn; [reflexivity|rewrite IH; reflexivity]).
  replace (length l1 + 1 + length l2)%nat with (length (l1 ++ a :: l2)) by (rewrite app_length; cbn; lia).
  replace (l1 ++ a :: l2 ++ b :: l3) with ((l1 ++ a :: l2) ++ b :: l3) by (rewrite <- app_assoc; reflexivity). rewrite S1, <- app_assoc. cbn [app]. rewrite S1. reflexivity.
Qed.
Lemma swap_same (l : list nat) i : (i < length l)%nat -> swap_nodes l i i = l.
Proof.
  unfold swap_nodes, at_. revert i. induction l as [|x l IH]; intros i Hi; [cbn in Hi; lia|]. destruct i as [|i]; [reflexivity|]. cbn [nth set_nth]. f_equal. apply IH. cbn in Hi. lia.
Qed.
(** Two different positions split the list *)
Lemma two_positions (l : list nat) i j : (i < j < length l)%nat -> exists l1 l2 l3, l = l1 ++ at_ l i :: l2 ++ at_ l j :: l3 /\ i = length l1 /\ j = (length l1 + 1 + length l2)%nat.
Proof.
  intros H. unfold at_. destruct (nth_split l 0%nat (n := i)) as (l1 & q & E & Hi); [lia|].
  destruct (nth_split q 0%nat (n := (j - i - 1)%nat)) as (l2 & l3 & E2 & Hj). { assert (X := f_equal (@length nat) E). rewrite app_length in X. cbn in X. lia. }
  assert (Ej : nth j l 0%nat = nth (j - i - 1) q 0%nat).
  { rewrite E, app_nth2 by lia. replace (j - length l1)%nat with (S (j - i - 1)) by lia. reflexivity. }
  exists l1, l2, l3. rewrite Ej, <- E2. split; [exact E|]. lia.
Qed.

Lemma two_point_contract rs best_delta : start_delta best_delta <= 0 -> Forall customers_only rs ->
  exists res, answered (do_naive_2point_move ceps eps D d C L first (encode rs) best_delta) res /\
    finds_improvement (path_cost D) (fun s => swapped_customers (encode rs) s /\ keeps_limits D d C L ceps eps s) (path_cost D (encode rs)) (start_delta best_delta) eps (negb first) res.
Proof.
  intros Hb H. rewrite two_point_scan. apply scan_answer; [assumption..| |].
  - intros dl m Hin. unfold cands2p in Hin. apply in_flat_map in Hin. destruct Hin as (i & Hi & Hin). apply in_range in Hi.
    destruct (Nat.eqb_spec (at_ (encode rs) i) 0) as [E0|Ei]; [destruct Hin|]. apply in_flat_map in Hin. destruct Hin as (j & Hj & Hin). apply in_range in Hj.
    destruct (Nat.eqb_spec (at_ (encode rs) j) 0) as [E0|Ej]; [destruct Hin|]. apply in_checked in Hin. destruct Hin as (Hc & -> & ->).
    split; [reflexivity|].
    assert (HS : i = j \/ swapped_customers (encode rs) (swap_nodes (encode rs) i j)).
    { destruct (Nat.lt_trichotomy i j) as [Hij|[->|Hij]]; [right|left; reflexivity|right].
      - destruct (two_positions (encode rs) i j) as (l1 & l2 & l3 & E & E1 & E2); [lia|]. exists l1, (at_ (encode rs) i), l2, (at_ (encode rs) j), l3.
        split; [exact Ei|]. split; [exact Ej|]. split; [exact E|].
        rewrite <- (swap_pieces l1 l2 l3 (at_ (encode rs) i) (at_ (encode rs) j)), <- E, <- E2, <- E1. reflexivity.
      - destruct (two_positions (encode rs) j i) as (l1 & l2 & l3 & E & E1 & E2); [lia|]. exists l1, (at_ (encode rs) j), l2, (at_ (encode rs) i), l3.
        split; [exact Ej|]. split; [exact Ei|]. split; [exact E|].
        rewrite <- (swap_pieces2 l1 l2 l3 (at_ (encode rs) j) (at_ (encode rs) i)), <- E, <- E2, <- E1. reflexivity. }
    destruct HS as [->|HS].
    + rewrite swap_same by lia. split; [right; lia|apply encode_not_nil].
    + destruct (swapped_ends rs _ HS) as (rs' & E' & F'). split; [left; split; [exact HS|]|rewrite E'; apply encode_not_nil].
      apply (check_limits ceps eps D d C L HD Hd HC); [exists rs'; auto|exact Hc].
  - intros s (HS & HL). right. pose proof (swapped_ends rs s HS) as HE. destruct HS as (l1 & a & l2 & b & l3 & Ha & Hb' & E & Es).
    exists (path_cost D s - path_cost D (encode rs)), s. split; [|reflexivity].
    assert (N3 : l3 <> []).
    { intros ->. pose proof (last_encode rs) as LE. rewrite E in LE. change (a :: l2 ++ [b]) with ((a :: l2) ++ [b]) in LE. rewrite app_assoc, last_last in LE. congruence. }
    pose proof (ne_len _ N3). assert (Hlen : length (encode rs) = (length l1 + 1 + length l2 + 1 + length l3)%nat) by (rewrite E, app_length; cbn [length]; rewrite app_length; cbn [length]; lia).
    assert (Ai : at_ (encode rs) (length l1) = a) by (unfold at_; rewrite E, app_nth2, Nat.sub_diag by lia; reflexivity).
    assert (Aj : at_ (encode rs) (length l1 + 1 + length l2) = b).
    { unfold at_. rewrite E, app_nth2 by lia. replace (length l1 + 1 + length l2 - length l1)%nat with (S (length l2)) by lia. cbn [nth]. rewrite app_nth2, Nat.sub_diag by lia. reflexivity. }
    unfold cands2p. apply in_flat_map. exists (length l1). split; [apply in_range; lia|]. rewrite Ai. replace (Nat.eqb a 0) with false by (symmetry; apply Nat.eqb_neq; assumption).
    apply in_flat_map. exists (length l1 + 1 + length l2)%nat. split; [apply in_range; lia|]. rewrite Aj. replace (Nat.eqb b 0) with false by (symmetry; apply Nat.eqb_neq; assumption).
    assert (Es2 : swap_nodes (encode rs) (length l1) (length l1 + 1 + length l2) = s) by (rewrite E, swap_pieces; symmetry; exact Es). rewrite Es2. apply checked_in. apply (check_limits ceps eps D d C L HD Hd HC); assumption.
Qed.
End Points.
