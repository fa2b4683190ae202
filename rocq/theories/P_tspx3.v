(** * The TSP solver with ACOTSP *)
From Verif Require Import PyBase M_text M_io P_text M_tspx P_tspg P_tspg2 P_tspg3 P_tspx P_tspx2 Spec_io Spec_tspx Spec_tspg Spec_rfcs Spec.
From Coq Require Import ZifyBool ZifyNat Lia List Permutation.
Import ListNotations.

Lemma split_on_aux_line x : forall l cur s, ~ In x l -> split_on_aux x cur (l ++ x :: s) = (cur ++ l) :: split_on_aux x [] s.
Proof.
  induction l as [|c l IH]; intros cur s H; cbn [app split_on_aux].
  - rewrite Ascii.eqb_refl. now rewrite app_nil_r.
  - destruct (Ascii.eqb_spec c x) as [->|N]; [exfalso; apply H; now left|]. rewrite IH by (intros G; apply H; now right). now rewrite <- app_assoc.
Qed.
Lemma split_file lines : Forall one_line lines -> split_on newline (file_of lines) = lines ++ [[]].
Proof.
  unfold split_on, file_of. induction 1 as [|l lines H _ IH]; [reflexivity|]. cbn [flat_map]. rewrite <- app_assoc. cbn [app]. rewrite split_on_aux_line; [cbn [app]; now rewrite IH|].
  intros G. unfold one_line in H. rewrite Forall_forall in H. now apply (H _ G).
Qed.
(** ** The line of a tour *)
Definition node_words (tour : list nat) : text := flat_map (fun k => str " " ++ print_int (Z.of_nat k)) tour.
Lemma node_words_chars tour : Forall (fun c => is_space c = true \/ digit_char c) (node_words tour).
Proof.
  unfold node_words. apply Forall_forall. intros c Hc. apply in_flat_map in Hc. destruct Hc as (k & _ & Hc). destruct Hc as [<-|Hc]; [left; reflexivity|]. right. pose proof (print_int_digits (Z.of_nat k)) as F. rewrite Forall_forall in F. now apply F.
Qed.
Lemma node_words_plain tour : forall c, In c (node_words tour) -> c <> "b"%char.
Proof.
  intros c Hc. pose proof (node_words_chars tour) as F. rewrite Forall_forall in F. intros ->. destruct (F _ Hc) as [H|H]; [discriminate|]. destruct H as [H|H]; [discriminate|]. revert H. cbn. lia.
Qed.
Lemma remove_none p c0 : (exists p', p = c0 :: p') -> forall s, (forall c, In c s -> c <> c0) -> remove_all p s 0 = s.
Proof.
  intros (p' & ->). induction s as [|c s IH]; intros H; [reflexivity|]. cbn [remove_all is_prefix]. destruct (Ascii.eqb_spec c0 c) as [E|N]; [exfalso; apply (H c); [now left|congruence]|]. cbn [andb]. rewrite IH by (intros; apply H; now right). reflexivity.
Qed.
Lemma remove_skip p : forall a s, remove_all p (a ++ s) (length a) = remove_all p s 0.
Proof. induction a as [|c a IH]; intros s; [reflexivity|]. cbn [app length remove_all]. apply IH. Qed.
Lemma is_prefix_app p s : is_prefix p (p ++ s) = true.
Proof. induction p as [|c p IH]; [reflexivity|]. cbn [app is_prefix]. now rewrite Ascii.eqb_refl, IH. Qed.
Lemma remove_front c0 p' s : (forall c, In c s -> c <> c0) -> remove_all (c0 :: p') ((c0 :: p') ++ s) 0 = s.
Proof.
  intros H. pose proof (is_prefix_app (c0 :: p') s) as E. cbn [app] in *. cbn [remove_all]. rewrite E. cbn [length]. rewrite Nat.sub_0_r || replace (S (length p') - 1)%nat with (length p') by lia. rewrite remove_skip. apply (remove_none _ c0); [eexists; reflexivity|exact H].
Qed.
Lemma best_line_rest tour : remove_all best_mark (best_line tour) 0 = node_words tour.
Proof. exact (remove_front "b"%char (str "est solution so far is") (node_words tour) (node_words_plain tour)). Qed.
Lemma split_words : forall tour, M_text.split (node_words tour) = map (fun k => print_int (Z.of_nat k)) tour.
Proof.
  induction tour as [|k t IH]; [reflexivity|]. unfold node_words in *. cbn [flat_map map]. unfold M_text.split in *. rewrite <- app_assoc, split_aux_spaces by (repeat constructor). 
  destruct t as [|k2 t]; [cbn [flat_map]; rewrite app_nil_r; apply split_last_word; [apply print_int_nonempty|apply print_int_nospace]|].
  cbn [flat_map] in *. cbn [list_ascii_of_string app] in *. change (split_aux [] ?x) with (M_text.split x) in *. rewrite split_word by (try apply print_int_nonempty; try apply print_int_nospace; reflexivity). f_equal. rewrite <- IH. symmetry. apply (split_aux_spaces [" "%char]). repeat constructor.
Qed.
Lemma parse_words : forall tour, parse_ints (map (fun k => print_int (Z.of_nat k)) tour) = Ok (map Z.of_nat tour).
Proof. induction tour as [|k t IH]; [reflexivity|]. cbn [map parse_ints]. rewrite parse_print_int, IH. reflexivity. Qed.
Lemma items_ok sel : forall tour, (forall k, In k tour -> (k < length sel)%nat) -> py_items sel (map Z.of_nat tour) = Ok (map (fun k => nth k sel 0%nat) tour).
Proof.
  induction tour as [|k t IH]; intros H; [reflexivity|]. cbn [map py_items]. unfold py_item. specialize (H k (or_introl eq_refl)) as Hk. replace (Z.of_nat k <? 0)%Z with false by lia. cbv zeta.
  replace ((0 <=? Z.of_nat k)%Z && (Z.of_nat k <? Z.of_nat (length sel))%Z) with true by lia. cbn [bind]. rewrite IH by (intros; apply H; now right). cbn [bind]. now rewrite Nat2Z.id.
Qed.
Lemma index_of_app x : forall l1 l2, ~ In x l1 -> index_of x (l1 ++ x :: l2) = Some (length l1).
Proof.
  induction l1 as [|y l1 IH]; intros l2 H; cbn [app index_of]; [now rewrite Nat.eqb_refl|]. destruct (Nat.eqb_spec y x) as [->|N]; [exfalso; apply H; now left|]. rewrite IH by (intros G; apply H; now right). reflexivity.
Qed.
Lemma map_nth_all (l : list nat) : map (fun i => nth i l 0%nat) (seq 0 (length l)) = l.
Proof.
  assert (Hm : forall m pre, map (fun i => nth i (pre ++ m) 0%nat) (seq (length pre) (length m)) = m); [|apply (Hm l [])].
  induction m as [|a m IH]; intros pre; [reflexivity|]. cbn [length seq map]. rewrite app_nth2, Nat.sub_diag by lia. cbn [nth]. f_equal. specialize (IH (pre ++ [a])). rewrite <- app_assoc in IH. cbn [app] in IH. rewrite app_length in IH. cbn [length] in IH. rewrite Nat.add_1_r in IH. exact IH.
Qed.
Lemma aco_best_line D sel best tour : NoDup sel -> sel <> [] -> Permutation tour (seq 0 (length sel)) -> exists sol, aco_line D sel best (best_line tour) = Ok (Some (sol, path_cost D sol)) /\ closed_tour sel sol.
Proof.
  intros Hn Hne P. unfold aco_line. replace (contains best_mark (firstn 25 (best_line tour))) with true by reflexivity. rewrite best_line_rest, split_words, parse_words. cbn [bind].
  rewrite items_ok by (intros k Hk; apply (Permutation_in _ P), in_seq in Hk; lia). cbn [bind]. destruct sel as [|a sel]; [contradiction|]. cbn [hd].
  assert (PM : Permutation (map (fun k => nth k (a :: sel) 0%nat) tour) (a :: sel)) by (rewrite (Permutation_map _ P), map_nth_all; reflexivity). remember (map (fun k => nth k (a :: sel) 0%nat) tour) as s eqn:Es. clear Es.
  assert (Ia : In a s) by (apply (Permutation_in _ (Permutation_sym PM)); now left). destruct (in_split _ _ Ia) as (l1 & l2 & ->). assert (ND : NoDup (l1 ++ a :: l2)) by (eapply Permutation_NoDup; [symmetry; exact PM|exact Hn]). apply NoDup_remove in ND.
  rewrite index_of_app by (intros H; apply (proj2 ND), in_or_app; now left). rewrite skipn_app, skipn_all, Nat.sub_diag, firstn_app, firstn_all, Nat.sub_diag. cbn [skipn firstn app]. rewrite app_nil_r.
  eexists. split; [reflexivity|]. exists a, (l2 ++ l1). split; [now rewrite <- app_assoc|]. split; [reflexivity|]. rewrite <- PM. apply (Permutation_app_comm (a :: l2) l1).
Qed.
Lemma aco_lines D sel : NoDup sel -> sel <> [] -> forall lines best,
  Forall (fun l => contains best_mark (firstn 25 l) = false \/ exists tour, Permutation tour (seq 0 (length sel)) /\ l = best_line tour) lines ->
  (exists sol, best = Some (sol, path_cost D sol) /\ closed_tour sel sol) \/ (exists tour, In (best_line tour) lines) ->
  exists sol, aco_loop D sel best lines = Ok (Some (sol, path_cost D sol)) /\ closed_tour sel sol.
Proof.
  intros Hn Hne. induction lines as [|l lines IH]; intros best F H.
  - destruct H as [(sol & -> & HC)|(tour & [])]. exists sol. auto.
  - inversion F as [|? ? H1 F']; subst. cbn [aco_loop]. destruct H1 as [H1|(tour & P & ->)].
    + unfold aco_line. rewrite H1. cbn [bind]. apply IH; [exact F'|]. destruct H as [H|(tour & [E|H])]; [left; exact H| |right; eauto]. exfalso. subst l. discriminate H1.
    + destruct (aco_best_line D sel best tour Hn Hne P) as (sol & E & HC). rewrite E. cbn [bind]. apply IH; [exact F'|]. left. eauto.
Qed.
Lemma closed_sorted l a t : NoDup l -> node_sort l = a :: t -> hd_error l = Some a -> closed_tour l ((a :: t) ++ [a]).
Proof. intros Hn E Hh. exists a, t. split; [reflexivity|]. split; [exact Hh|]. rewrite <- E. apply node_sort_perm. Qed.
Lemma aco_result aco unit acc N D sel : aco_prints_tours aco -> distances D sel -> NoDup sel -> (4 <= length sel)%nat -> exists sol, solve_tsp_acotsp aco unit acc false N D sel = Some (Ok (Some (sol, path_cost D sol))) /\ closed_tour sel sol.
Proof.
  intros HA HD Hn H4. unfold solve_tsp_acotsp. destruct (Nat.leb_spec (length sel) 3); [lia|]. assert (Hne : sel <> []) by (intros ->; cbn in H4; lia). cbv zeta.
  destruct (HA _ _ _ (problem_describes unit acc N D sel Hne HD) H4) as (lines & E & (tour & Ht) & F). rewrite E, split_file by (eapply Forall_impl; [|exact F]; intros l Hl; apply Hl).
  destruct (aco_lines D sel Hn Hne (lines ++ [[]]) None) as (sol & ES & HC).
  - apply Forall_app. split; [eapply Forall_impl; [|exact F]; intros l Hl; apply Hl|]. constructor; [left; reflexivity|constructor].
  - right. exists tour. apply in_or_app. now left.
  - exists sol. rewrite ES. auto.
Qed.
Lemma aco_small aco unit acc ants N D sel : sel <> [] -> (length sel <= 3)%nat -> exists sol, solve_tsp_acotsp aco unit acc ants N D sel = Some (Ok (Some (sol, path_cost D sol))) /\ round_trip sel sol.
Proof.
  intros Hne H. unfold solve_tsp_acotsp. destruct (Nat.leb_spec (length sel) 3); [|lia]. destruct (node_sort_some sel Hne) as (a & t & E). rewrite E. exists ((a :: t) ++ [a]). split; [reflexivity|]. now apply sorted_trip.
Qed.
Lemma closed_round l sol : closed_tour l sol -> exists s, sol = s ++ firstn 1 s /\ Permutation s l.
Proof. intros (f & t & -> & _ & P). exists (f :: t). auto. Qed.
(** For every list of different nodes: a closed tour of them with its length *)
Lemma aco_any aco unit acc N D sel : aco_prints_tours aco -> distances D sel -> NoDup sel -> sel <> [] -> exists s, solve_tsp_acotsp aco unit acc false N D sel = Some (Ok (Some (s ++ firstn 1 s, path_cost D (s ++ firstn 1 s)))) /\ Permutation s sel.
Proof.
  intros HA HD Hn Hne. destruct (le_lt_dec (length sel) 3) as [G|G].
  - destruct (aco_small aco unit acc false N D sel Hne G) as (sol & E & s & -> & P & _). eauto.
  - destruct (aco_result aco unit acc N D sel HA HD Hn G) as (sol & E & HC). destruct (closed_round _ _ HC) as (s & -> & P). eauto.
Qed.
Lemma aco_solver aco N D : aco_prints_tours aco -> symmetric D -> (forall i, D i i = 0%Z) -> solver N D (aco_tsp aco N D).
Proof.
  intros HA HS H0 l Hne Hn Hb. assert (Hn0 : NoDup (0%nat :: l)) by (constructor; [intros H; specialize (Hb _ H); lia|exact Hn]). unfold aco_tsp. destruct (le_lt_dec (length (0%nat :: l)) 3) as [G|G].
  - destruct (aco_small aco None 1 false N D (0%nat :: l) ltac:(discriminate) G) as (sol & E & s & -> & P & Hh). rewrite E. specialize (Hh (or_introl eq_refl)). destruct s as [|a l']; [discriminate|]. cbn in Hh. injection Hh as ->. exists l'. split; [reflexivity|]. now apply Permutation_cons_inv in P.
  - destruct (aco_result aco None 1 N D (0%nat :: l) HA) as (sol & E & f & t & -> & Hf & P); [split; auto|exact Hn0|exact G|]. rewrite E. cbn in Hf. injection Hf as <-. exists t. split; [reflexivity|]. now apply Permutation_cons_inv in P.
Qed.
Lemma aco_ants aco unit acc N D sel : (4 <= length sel)%nat -> solve_tsp_acotsp aco unit acc true N D sel = None.
Proof. intros H. unfold solve_tsp_acotsp. destruct (Nat.leb_spec (length sel) 3); [lia|reflexivity]. Qed.
