(** * The TSP solver with LKH *)
From Verif Require Import PyBase M_text M_io P_text P_io3 P_io7 M_tspx P_tspg P_tspg2 P_tspg3 Spec_io Spec_tspx Spec_tspg Spec.
From Coq Require Import ZifyBool ZifyNat Lia List Permutation.
Import ListNotations.

(** ** The problem file *)
Lemma write_rows_ext {V} (p q : V -> text) (D : nat -> nat -> V) E : (forall i j, p (D i j) = q (E i j)) -> forall idxs, write_rows p D idxs = write_rows q E idxs.
Proof.
  intros H. induction idxs as [|i t IH]; [reflexivity|]. cbn [write_rows]. rewrite IH. f_equal. unfold write_row. rewrite !flat_map_concat_map. f_equal. apply map_ext. intros j. now rewrite H.
Qed.
Lemma problem_describes unit acc N D sel : sel <> [] -> distances D sel ->
  describes (write_TSPLIB_file (fun z => print_int (weight unit acc z)) false N D [] None None sel) (length sel) (fun a b => weight unit acc (D (nth a sel 0%nat) (nth b sel 0%nat))).
Proof.
  intros Hne [HS H0]. replace (write_TSPLIB_file (fun z => print_int (weight unit acc z)) false N D [] None None sel) with (write_TSPLIB_file print_int false N (fun i j => weight unit acc (D i j)) [] None None sel).
  2:{ unfold write_TSPLIB_file. rewrite (write_rows_ext (fun z => print_int (weight unit acc z)) print_int D (fun i j => weight unit acc (D i j))) by reflexivity. reflexivity. }
  assert (Es : selection N sel = sel) by (destruct sel; [contradiction|reflexivity]).
  destruct (c34_tsp_sym print_int parse_int (fun z => z) 0%Z (fun z => z) (fun _ _ => None) number_text_Z N (fun i j => weight unit acc (D i j)) [] None None sel) as (D' & E & HD).
  - rewrite Es. destruct sel; [contradiction|cbn; lia].
  - rewrite Es. split; [intros i j _ _; now rewrite HS|]. intros i Hi. rewrite (H0 i Hi). unfold weight. destruct unit; reflexivity.
  - rewrite Es in *. eexists. exists D'. split; [exact E|]. split; [reflexivity|]. exact HD.
Qed.

(** ** The tour file *)
Lemma lkh_loop_app sel : forall l1 s l2, lkh_loop sel s (l1 ++ l2) = bind (lkh_loop sel s l1) (fun s' => lkh_loop sel s' l2).
Proof. induction l1 as [|l l1 IH]; intros s l2; [reflexivity|]. cbn [app lkh_loop]. destruct (lkh_line sel s l) as [s'|e]; cbn [bind]; auto. Qed.
Lemma eqb_neq a b : a <> b -> text_eqb a b = false.
Proof. intros H. destruct (text_eqb a b) eqn:E; [|reflexivity]. apply text_eqb_eq in E. contradiction. Qed.
Lemma ordinary_lines sel obj : forall ls, Forall ordinary ls -> lkh_loop sel (mklkh [] [] obj true false) (map (fun l => l ++ [newline]) ls) = Ok (mklkh [] [] obj true false).
Proof.
  induction 1 as [|l ls (H1 & H2 & H3) _ IH]; [reflexivity|]. cbn [map lkh_loop]. unfold lkh_line at 1. rewrite strip_newline, H2. cbn [lkh_sol lkh_tail lkh_obj lkh_skip lkh_found].
  destruct (text_eqb (strip l) (str "EOF") || text_eqb (strip l) (str "-1")); cbn [bind]; rewrite (eqb_neq _ _ H3); cbn [bind]; exact IH.
Qed.
Lemma length_line sel obj len : lkh_line sel (mklkh [] [] obj true false) ((str "COMMENT : Length = " ++ print_int len) ++ [newline]) = Ok (mklkh [] [] len true false).
Proof.
  unfold lkh_line. rewrite strip_newline. assert (T : tight (str "COMMENT : Length = " ++ print_int len)) by (apply tight_app; [discriminate|reflexivity|apply print_int_nospace|apply print_int_nonempty]). rewrite (strip_tight0 _ T).
  replace (text_eqb (str "COMMENT : Length = " ++ print_int len) (str "EOF")) with false by (symmetry; apply eqb_neq; discriminate).
  replace (text_eqb (str "COMMENT : Length = " ++ print_int len) (str "-1")) with false by (symmetry; apply eqb_neq; discriminate). cbn [orb].
  replace (contains (str "Length = ") (str "COMMENT : Length = " ++ print_int len)) with true by reflexivity.
  replace (List.last (M_text.split (str "COMMENT : Length = " ++ print_int len)) []) with (print_int len).
  2:{ change (str "COMMENT : Length = " ++ print_int len) with (str "COMMENT" ++ " "%char :: str ":" ++ " "%char :: str "Length" ++ " "%char :: str "=" ++ " "%char :: print_int len).
      rewrite !split_word by (try discriminate; try reflexivity; repeat constructor). rewrite split_last_word by (try apply print_int_nonempty; apply print_int_nospace). reflexivity. }
  rewrite parse_print_int. cbn [bind]. replace (text_eqb (str "COMMENT : Length = " ++ print_int len) (str "TOUR_SECTION")) with false by (symmetry; apply eqb_neq; discriminate). reflexivity.
Qed.
Lemma section_line sel obj : lkh_line sel (mklkh [] [] obj true false) (str "TOUR_SECTION" ++ [newline]) = Ok (mklkh [] [] obj false false).
Proof. reflexivity. Qed.
Lemma stop1 sel s : lkh_line sel s (str "-1" ++ [newline]) = Ok (mklkh (lkh_sol s) (lkh_tail s) (lkh_obj s) true (lkh_found s)).
Proof. reflexivity. Qed.
Lemma stop2 sel s : lkh_line sel s (str "EOF" ++ [newline]) = Ok (mklkh (lkh_sol s) (lkh_tail s) (lkh_obj s) true (lkh_found s)).
Proof. reflexivity. Qed.
Lemma node_line sel sol tail obj found k : (k < length sel)%nat ->
  lkh_line sel (mklkh sol tail obj false found) (print_int (Z.of_nat k + 1) ++ [newline]) =
  let v := nth k sel 0%nat in
  Ok (if Nat.eqb v 0 || found then mklkh (sol ++ [v]) (if Nat.eqb v 0 then tail ++ [0%nat] else tail) obj false true else mklkh sol (tail ++ [v]) obj false false).
Proof.
  intros Hk. unfold lkh_line. rewrite strip_newline, (strip_tight0 _ (print_int_tight _)).
  assert (NE : forall t z, parse_int t = Some z -> z <> (Z.of_nat k + 1)%Z -> print_int (Z.of_nat k + 1) <> t) by (intros t z Hp Hz E; rewrite <- E, parse_print_int in Hp; congruence).
  assert (NL : forall t c, In c t -> (65 <= nat_of_ascii c <= 90)%nat -> print_int (Z.of_nat k + 1) <> t) by (intros t c Hc Hr E; pose proof (print_int_plain (Z.of_nat k + 1)) as P; pose proof (plain_contains [c] _ c P (or_introl eq_refl) Hr) as G; rewrite E in G; clear - G Hc; induction t as [|x t IH]; [destruct Hc|]; cbn [contains is_prefix] in G; destruct Hc as [->|Hc]; [rewrite Ascii.eqb_refl in G; discriminate|apply orb_false_iff in G; apply IH; tauto]).
  rewrite (eqb_neq _ (str "EOF")) by (apply (NL _ "E"%char); [now left|cbn; lia]). rewrite (eqb_neq _ (str "-1")) by (apply (NE _ (-1)%Z); [reflexivity|lia]). cbn [orb].
  rewrite (plain_contains _ _ "L"%char (print_int_plain _)) by (try (now left); cbn; lia). cbn [lkh_skip]. rewrite parse_print_int.
  unfold py_item. replace (Z.of_nat k + 1 - 1)%Z with (Z.of_nat k) by lia. replace (Z.of_nat k <? 0)%Z with false by lia. cbv zeta. replace ((0 <=? Z.of_nat k)%Z && (Z.of_nat k <? Z.of_nat (length sel))%Z) with true by lia.
  cbn [bind lkh_sol lkh_tail lkh_obj lkh_skip lkh_found]. rewrite Nat2Z.id. rewrite (eqb_neq _ (str "TOUR_SECTION")) by (apply (NL _ "T"%char); [now left|cbn; lia]).
  destruct (Nat.eqb_spec (nth k sel 0%nat) 0) as [E|E]; cbn [orb bind]; [reflexivity|]. destruct found; reflexivity.
Qed.
Lemma nodes_found sel obj : forall tour sol tail, (forall k, In k tour -> (k < length sel)%nat /\ nth k sel 0%nat <> 0%nat) ->
  lkh_loop sel (mklkh sol tail obj false true) (map (fun l => l ++ [newline]) (tour_lines tour)) = Ok (mklkh (sol ++ map (fun k => nth k sel 0%nat) tour) tail obj false true).
Proof.
  induction tour as [|k t IH]; intros sol tail H; [cbn; now rewrite app_nil_r|]. unfold tour_lines. cbn [map lkh_loop]. rewrite node_line by (apply H; now left). cbv zeta.
  destruct (Nat.eqb_spec (nth k sel 0%nat) 0) as [E|E]; [exfalso; revert E; apply H; now left|]. cbn [orb bind]. fold (tour_lines t). rewrite IH by (intros; apply H; now right). now rewrite <- app_assoc.
Qed.
Lemma nodes_before sel obj : forall tour tail, (forall k, In k tour -> (k < length sel)%nat /\ nth k sel 0%nat <> 0%nat) ->
  lkh_loop sel (mklkh [] tail obj false false) (map (fun l => l ++ [newline]) (tour_lines tour)) = Ok (mklkh [] (tail ++ map (fun k => nth k sel 0%nat) tour) obj false false).
Proof.
  induction tour as [|k t IH]; intros tail H; [cbn; now rewrite app_nil_r|]. unfold tour_lines. cbn [map lkh_loop]. rewrite node_line by (apply H; now left). cbv zeta.
  destruct (Nat.eqb_spec (nth k sel 0%nat) 0) as [E|E]; [exfalso; revert E; apply H; now left|]. cbn [orb bind]. fold (tour_lines t). rewrite IH by (intros; apply H; now right). now rewrite <- app_assoc.
Qed.
Lemma print_one_line z : one_line (print_int z).
Proof. apply print_int_one_line. Qed.
(** What is read from the tour file: the nodes in the order of the file, from the depot if it is there *)
Lemma lkh_read sel tour len file : NoDup sel -> sel <> [] -> Permutation tour (seq 0 (length sel)) -> tour_file tour len file ->
  exists s l1 l2, bind (lkh_loop sel lkh_init (readlines file)) (fun st => bind (lkh_close st) (fun sol => Ok (sol, lkh_obj st))) = Ok (s ++ firstn 1 s, len) /\
    map (fun k => nth k sel 0%nat) tour = l1 ++ l2 /\ s = l2 ++ l1 /\ Permutation s sel /\ (In 0%nat sel -> hd_error s = Some 0%nat).
Proof.
  intros Hn Hne P (pre & mid & Hpre & Hmid & ->). rewrite readlines_file.
  2:{ repeat (apply Forall_app; split); try (repeat constructor; discriminate).
      - eapply Forall_impl; [|exact Hpre]. intros l Hl. apply Hl.
      - constructor; [|constructor]. unfold one_line. apply Forall_app. split; [repeat constructor; discriminate|apply print_int_one_line].
      - eapply Forall_impl; [|exact Hmid]. intros l Hl. apply Hl.
      - unfold tour_lines. apply Forall_forall. intros l Hl. apply in_map_iff in Hl. destruct Hl as (k & <- & _). apply print_int_one_line. }
  rewrite !(map_app (fun l => l ++ [newline])), !lkh_loop_app. unfold lkh_init. rewrite ordinary_lines by exact Hpre. rewrite bind_Ok. cbn [map lkh_loop].
  rewrite lkh_loop_app. cbn [lkh_loop]. rewrite length_line. cbn [bind].
  rewrite lkh_loop_app, ordinary_lines by exact Hmid. cbn [bind]. rewrite lkh_loop_app. cbn [lkh_loop]. rewrite section_line. cbn [bind].
  assert (Hk : forall k, In k tour -> (k < length sel)%nat) by (intros k Hk; apply (Permutation_in _ P), in_seq in Hk; lia).
  assert (PM : Permutation (map (fun k => nth k sel 0%nat) tour) sel).
  { rewrite (Permutation_map _ P). clear. assert (Hm : forall pre m, map (fun i => nth i (pre ++ m) 0%nat) (seq (length pre) (length m)) = m); [|pose proof (Hm [] sel) as E; cbn [app length] in E; rewrite E; reflexivity].
    intros pre m. revert pre. induction m as [|a m IH]; intros pre; [reflexivity|]. cbn [length seq map]. rewrite app_nth2, Nat.sub_diag by lia. cbn [nth]. f_equal. specialize (IH (pre ++ [a])). rewrite <- app_assoc in IH. cbn [app] in IH. rewrite app_length in IH. cbn [length] in IH. rewrite Nat.add_1_r in IH. exact IH. }
  rewrite lkh_loop_app. destruct (in_dec Nat.eq_dec 0%nat sel) as [I0|I0].
  - assert (I0' : In 0%nat (map (fun k => nth k sel 0%nat) tour)) by now apply (Permutation_in _ (Permutation_sym PM)). apply in_map_iff in I0'. destruct I0' as (k0 & E0 & Hk0). destruct (in_split _ _ Hk0) as (t1 & t2 & Et).
    assert (ND : NoDup (map (fun k => nth k sel 0%nat) tour)) by (eapply Permutation_NoDup; [symmetry; exact PM|exact Hn]). rewrite Et, map_app in ND. cbn [map] in ND. rewrite E0 in ND. apply NoDup_remove in ND. destruct ND as [_ ND].
    assert (Hz : forall k, In k t1 \/ In k t2 -> (k < length sel)%nat /\ nth k sel 0%nat <> 0%nat).
    { intros k H. split; [apply Hk; rewrite Et; apply in_or_app; cbn; tauto|]. intros E. apply ND, in_or_app. destruct H as [H|H]; [left|right]; apply in_map_iff; exists k; auto. }
    rewrite Et. unfold tour_lines. rewrite !map_app. fold (tour_lines t1). cbn [map]. fold (tour_lines t2). rewrite lkh_loop_app, nodes_before by auto. cbn [bind lkh_loop]. rewrite node_line by (apply Hk; rewrite Et; apply in_or_app; right; now left). cbv zeta. rewrite E0, Nat.eqb_refl. cbn [orb bind].
    rewrite nodes_found by auto. cbn [bind]. cbn [map].
    cbn [lkh_loop]. rewrite stop1. cbn [bind]. rewrite stop2. unfold lkh_close. cbn [bind lkh_close lkh_found lkh_sol lkh_tail lkh_obj app].
    exists (0%nat :: map (fun k => nth k sel 0%nat) t2 ++ map (fun k => nth k sel 0%nat) t1), (map (fun k => nth k sel 0%nat) t1), (0%nat :: map (fun k => nth k sel 0%nat) t2).
    split; [cbn [firstn app]; now rewrite <- app_assoc|]. split; [reflexivity|]. split; [reflexivity|]. split; [|reflexivity].
    rewrite <- PM, Et, map_app. cbn [map]. rewrite E0. symmetry. apply (Permutation_app_comm (map (fun k => nth k sel 0%nat) t1) (0%nat :: map (fun k => nth k sel 0%nat) t2)).
  - rewrite nodes_before.
    2:{ intros k H. split; [now apply Hk|]. intros E. apply I0, (Permutation_in _ PM). apply in_map_iff. exists k. auto. }
    cbn [bind map lkh_loop]. rewrite stop1. cbn [bind]. rewrite stop2. cbn [bind lkh_close lkh_found lkh_sol lkh_tail lkh_obj app]. unfold lkh_close. cbn [lkh_found lkh_sol lkh_tail app].
    destruct (map (fun k => nth k sel 0%nat) tour) as [|a s] eqn:Em; [apply Permutation_nil in PM; congruence|]. cbn [bind].
    exists (a :: s), [], (a :: s). rewrite app_nil_r. split; [reflexivity|]. split; [reflexivity|]. split; [reflexivity|]. split; [exact PM|tauto].
Qed.
