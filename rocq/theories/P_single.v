(** * The example that solves one file *)
From Verif Require Import Spec Spec_savings PyBase M_util M_dist M_psavings M_text M_io Spec_io Spec_coord Spec_header P_base P_util P_dist T_coord T_dist T_psavings T_savfam P_coord P_header M_single.
From Coq Require Import ZifyBool ZifyNat Lia Arith List Permutation.
Import ListNotations.
Local Open Scope Z_scope.

Lemma all_some_map {A} (l : list A) : all_some (map Some l) = Some l.
Proof. induction l; [reflexivity|]. cbn. now rewrite IHl. Qed.

Lemma in_order_nth {A} n (l : list (Z * A)) (dflt : A) i : in_order n l -> (i < n)%nat -> In (Z.of_nat (S i), nth i (map snd l) dflt) l.
Proof.
  unfold in_order. intros H Hi.
  assert (L : List.length l = n) by (rewrite <- (map_length fst), H, map_length; apply seq_length).
  assert (E : nth_error (map fst l) i = Some (Z.of_nat (S i))).
  { rewrite H. rewrite nth_error_map, (nth_error_nth' _ 0%nat) by (now rewrite seq_length). now rewrite seq_nth. }
  rewrite nth_error_map in E. destruct (nth_error l i) as [[id v]|] eqn:El; [|discriminate]. cbn in E. injection E as ->.
  rewrite (nth_error_nth (map snd l) i dflt (x := v)).
  - now apply (nth_error_In _ i).
  - now rewrite nth_error_map, El.
Qed.

Lemma single_ok parse_float geo other q eps pre n ewt c lines points lines' loads : 0 < q -> 0 <= eps ->
  Forall inert_header pre -> planar ewt -> (2 <= n)%nat ->
  Forall2 (point_line parse_float) lines points -> in_order n points ->
  Forall2 (load_line parse_float) lines' loads -> in_order n loads ->
  c = 0 \/ (forall id v, In (id, v) loads -> id <> 1 -> v <= q * c + eps) ->
  exists rs, single_solve parse_float geo other q eps (coord_file pre n ewt c lines lines') = Some (map (fun r => 0%nat :: r ++ [0%nat]) rs) /\
  covers n rs /\ Forall (fun r => r <> []) rs /\
  forall d, (forall id v, In (id, v) loads -> d (Z.to_nat (id - 1)) = v) -> Forall (fun r => c <> 0 -> demand d r <= q * c + eps) rs.
Proof.
  intros Hq He H1 H2 Hn H3 H4 H5 H6 H7.
  assert (Lp : List.length points = n) by (rewrite <- (map_length fst), H4, map_length; apply seq_length).
  assert (Ll : List.length loads = n) by (rewrite <- (map_length fst), H6, map_length; apply seq_length).
  destruct (C106_matrix other q (map snd points) (Some ewt) Hq) as [[_ HK] HD].
  destruct HK as ([m D] & ED).
  { exists ewt. split; [reflexivity|]. unfold planar in H2. cbn [In] in *. intuition auto. }
  destruct (HD m D ED) as (Em & HS & _). rewrite map_length, Lp in Em. subst m.
  set (d := fun i => nth i (map snd loads) 0).
  assert (HA : served_alone n D d (Some (q * c)) None eps eps).
  { intros i Hi. split; [|exact I]. cbn. intros Hc. unfold demand. cbn. rewrite Z.add_0_r.
    destruct H7 as [->|H7]; [lia|]. apply (H7 (Z.of_nat (S i))); [|lia]. apply in_order_nth with (n := n); [exact H6|lia]. }
  destruct (C39_parallel eps eps n D d (Some (q * c)) None false _ Hn HS HA (C25_clarke_wright_list n D)) as (rs & ER & (HC & HN & HF)).
  exists rs. assert (Hc : Forall customers_only rs).
  { apply Forall_forall. intros r Hr. apply Forall_forall. intros k Hk.
    assert (H : In k (concat rs)) by (apply in_concat; eauto). apply (Permutation_in k HC) in H. apply in_seq in H. lia. }
  split; [|split; [exact HC|split; [exact HN|]]].
  - unfold single_solve. rewrite (C125_by_position Z parse_float 0 geo (matrix_of other q) pre n ewt c lines points lines' loads (n, D) H1 H2 H3 Lp H5 Ll).
    + cbn [pb_D pb_demands pb_C option_map].
      replace (map (fun e => Some (snd e)) loads) with (map Some (map snd loads)) by (now rewrite map_map). rewrite all_some_map.
      fold d. rewrite ER. rewrite sol2routes_encode by exact Hc. rewrite P_base.filter_nonempty_id by exact HN. reflexivity.
    + unfold matrix_of. replace (map (fun e => Some (snd e)) points) with (map Some (map snd points)) by (now rewrite map_map).
      rewrite all_some_map. exact ED.
  - intros d' Hd'. assert (E : forall i, (1 <= i < n)%nat -> d' i = d i).
    { intros i Hi. specialize (Hd' _ _ (in_order_nth n loads 0 i H6 ltac:(lia))). replace (Z.to_nat (Z.of_nat (S i) - 1)) with i in Hd' by lia. exact Hd'. }
    apply Forall_forall. intros r Hr Hc0. rewrite Forall_forall in HF. destruct (HF r Hr) as [HF1 _]. cbn in HF1.
    replace (demand d' r) with (demand d r); [apply HF1; nia|]. unfold demand. f_equal. apply map_ext_in. intros i Hi. symmetry. apply E.
    assert (H : In i (concat rs)) by (apply in_concat; eauto). apply (Permutation_in i HC) in H. apply in_seq in H. lia.
Qed.

Lemma single_header parse_float geo other q eps header n ewt c lines points lines' loads : 0 < q -> 0 <= eps ->
  header_of n c ewt header -> planar ewt -> (2 <= n)%nat ->
  Forall2 (point_line parse_float) lines points -> in_order n points ->
  Forall2 (load_line parse_float) lines' loads -> in_order n loads ->
  c = 0 \/ (forall id v, In (id, v) loads -> id <> 1 -> v <= q * c + eps) ->
  exists rs, single_solve parse_float geo other q eps (tsplib_file header lines lines') = Some (map (fun r => 0%nat :: r ++ [0%nat]) rs) /\
  covers n rs /\ Forall (fun r => r <> []) rs /\
  forall d, (forall id v, In (id, v) loads -> d (Z.to_nat (id - 1)) = v) -> Forall (fun r => c <> 0 -> demand d r <= q * c + eps) rs.
Proof.
  intros Hq He H1 H2 Hn H3 H4 H5 H6 H7.
  destruct (single_ok parse_float geo other q eps [] n ewt c lines points lines' loads) as (rs & E & H); auto.
  exists rs. split; [|exact H]. rewrite <- E. unfold single_solve.
  now rewrite (header_same parse_float 0 geo (matrix_of other q) header n ewt c lines points lines' loads) by (auto; now left).
Qed.
