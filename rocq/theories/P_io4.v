(** * Depot relocation, solution formats, additional constraints *)
From Verif Require Import Spec PyBase M_text M_io Spec_io P_text P_io P_io2 P_io3.
Require Import ZifyBool ZifyNat Lia.

(** ** Relocation *)
Lemma permute_columns_eq {V} perm N (D : nat -> nat -> V) r c :
  permute_columns perm N D r c = if (c <? N)%nat then D (nth r perm 0%nat) c else D r c.
Proof.
  unfold permute_columns, range. rewrite Nat.sub_0_r. induction N as [|N IH]; [reflexivity|].
  rewrite seq_S, fold_left_app. cbn [fold_left]. cbn [plus].
  set (F := fold_left _ _ _) in *.
  destruct (Nat.eqb_spec c N) as [->|Hc].
  - replace (N <? S N)%nat with true by (symmetry; apply Nat.ltb_lt; lia).
    clear IH. unfold F. clear F.
    assert (G : forall m k (E : nat -> nat -> V) x y, (k + m <= y)%nat ->
       fold_left (fun D i => fun r c => if Nat.eqb c i then D (nth r perm 0%nat) i else D r c) (seq k m) E x y = E x y).
    { induction m as [|m IHm]; intros k E x y Hy; [reflexivity|]. cbn [seq fold_left]. rewrite IHm by lia.
      destruct (Nat.eqb_spec y k); [lia|reflexivity]. }
    apply G. lia.
  - rewrite IH. destruct (Nat.ltb_spec c N), (Nat.ltb_spec c (S N)); try reflexivity; lia.
Qed.

Lemma permute_rows_eq {V} perm N (D : nat -> nat -> V) r c :
  permute_rows perm N D r c = if (r <? N)%nat then D r (nth c perm 0%nat) else D r c.
Proof.
  unfold permute_rows, range. rewrite Nat.sub_0_r. induction N as [|N IH]; [reflexivity|].
  rewrite seq_S, fold_left_app. cbn [fold_left]. cbn [plus].
  destruct (Nat.eqb_spec r N) as [->|Hr].
  - replace (N <? S N)%nat with true by (symmetry; apply Nat.ltb_lt; lia). clear IH.
    assert (G : forall m k (E : nat -> nat -> V) x y, (k + m <= x)%nat ->
       fold_left (fun D i => fun r c => if Nat.eqb r i then D i (nth c perm 0%nat) else D r c) (seq k m) E x y = E x y).
    { induction m as [|m IHm]; intros k E x y Hy; [reflexivity|]. cbn [seq fold_left]. rewrite IHm by lia.
      destruct (Nat.eqb_spec x k); [lia|reflexivity]. }
    apply G. lia.
  - rewrite IH. destruct (Nat.ltb_spec r N), (Nat.ltb_spec r (S N)); try reflexivity; lia.
Qed.

Lemma nth_seq_or a m i : nth i (seq a m) 0%nat = if (i <? m)%nat then (a + i)%nat else 0%nat.
Proof.
  destruct (Nat.ltb_spec i m); [now apply seq_nth|]. apply nth_overflow. rewrite seq_length. lia.
Qed.

Lemma relocation_nth k n i : (k < n)%nat -> (i < n)%nat -> nth i (relocation k n) 0%nat = old_index k i.
Proof.
  intros Hk Hi. unfold relocation, range, old_index. rewrite Nat.sub_0_r. destruct i as [|i]; [reflexivity|].
  cbn [app nth]. destruct (Nat.leb_spec (S i) k) as [H|H].
  - rewrite app_nth1 by (rewrite seq_length; lia). rewrite seq_nth by lia. lia.
  - rewrite app_nth2, seq_length by (rewrite seq_length; lia). rewrite seq_nth by lia. lia.
Qed.

Lemma nth_error_firstn_lt {A} (l : list A) k i : (i < k)%nat -> nth_error (firstn k l) i = nth_error l i.
Proof. revert k i. induction l as [|a l IH]; intros [|k] [|i] H; try reflexivity; try lia; cbn. apply IH. lia. Qed.
Lemma nth_error_skipn_plus {A} (l : list A) k i : nth_error (skipn k l) i = nth_error l (k + i).
Proof. revert k. induction l as [|a l IH]; intros [|k]; try reflexivity; cbn; [now destruct i|apply IH]. Qed.

Lemma move_front_spec {A} k (l : list A) : (k < List.length l)%nat -> exists l', move_front k (Some l) = Ok (Some l') /\ moved_front k l l'.
Proof.
  intros Hk.
  assert (Em : move_front k (Some l) = (do v <- item l k; Ok (Some ([v] ++ slice_to k l ++ slice_from (k + 1) l)))).
  { destruct l as [|x t]; [cbn in Hk; lia|reflexivity]. }
  rewrite Em. unfold item. destruct (nth_error l k) as [v|] eqn:E.
  2:{ apply nth_error_None in E. lia. }
  cbn [or_raise bind]. eexists. split; [reflexivity|]. unfold slice_to, slice_from. split.
  - cbn [app List.length]. rewrite app_length, firstn_length, skipn_length. lia.
  - intros i Hi. unfold old_index. destruct i as [|i]; [cbn; congruence|]. cbn [app nth_error].
    destruct (Nat.leb_spec (S i) k) as [H|H].
    + rewrite nth_error_app1 by (rewrite firstn_length; lia). apply nth_error_firstn_lt. lia.
    + rewrite nth_error_app2 by (rewrite firstn_length; lia). rewrite firstn_length, nth_error_skipn_plus. f_equal. lia.
Qed.

Section Depot.
Context {V : Type}.
Variable parse_float : text -> option V.
Variable vzero : V.
Variable geo : V -> V.
Variable calcD : option text -> list (option (V * V)) -> option (nat * (nat -> nat -> V)).
Notation rstate := (@rstate V).
Notation loop := (read_loop parse_float vzero geo).

Lemma is_prefix_app p s b : is_prefix p s = true -> is_prefix p (s ++ b) = true.
Proof. revert s. induction p as [|a p IH]; intros [|c s] H; try easy. cbn in *. apply andb_true_iff in H as [-> H]. now apply IH. Qed.
Lemma contains_app_l p a s : contains p s = true -> contains p (a ++ s) = true.
Proof. intros H. induction a as [|c a IH]; [exact H|]. cbn. now rewrite IH, orb_true_r. Qed.
Lemma contains_app_r p s b : contains p s = true -> contains p (s ++ b) = true.
Proof.
  induction s as [|c s IH]; cbn; intros H; apply orb_true_iff in H as [H|H]; try easy.
  - destruct p; [|discriminate]. destruct b; reflexivity.
  - pose proof (is_prefix_app p (c :: s) b H) as Hp. cbn [app] in Hp. rewrite Hp. reflexivity.
  - rewrite IH by exact H. apply orb_true_r.
Qed.
Lemma contains_strip p l : contains p l = false -> contains p (strip l) = false.
Proof.
  intros H. destruct (contains p (strip l)) eqn:E; [|reflexivity].
  destruct (strip_decomp l) as (w1 & w2 & _ & _ & El). rewrite El in H.
  rewrite contains_app_l in H; [discriminate|]. now apply contains_app_r.
Qed.


Definition no_depot (s : rstate) : Prop := rs_section s <> SecDepot /\ rs_depots s = [].

Lemma field_no_depot (s s1 : rstate) f v : read_field s f v = Ok s1 -> no_depot s -> no_depot s1.
Proof.
  unfold read_field, no_depot. intros H [H1 H2].
  repeat match type of H with
  | (if ?b then _ else _) = _ => destruct b
  | bind (or_raise _ ?x) _ = _ => destruct x; cbn in H
  | (let _ := _ in _) = _ => cbv zeta in H
  end; try discriminate; injection H as <-; auto.
Qed.

Lemma weights_no_depot ws (s s1 : rstate) : read_weights parse_float s ws = Ok s1 -> no_depot s -> no_depot s1.
Proof.
  revert s. induction ws as [|w ws IH]; intros s H Hs; cbn [read_weights] in H; [now injection H as <-|].
  destruct (read_weight parse_float s w) as [s2|] eqn:E; [|discriminate]. cbn in H. apply (IH s2); [exact H|].
  unfold read_weight in E. destruct (rs_D s) as [[n D]|]; [|discriminate]. destruct (rs_ij s).
  destruct (parse_float w); [|discriminate]. cbn [or_raise bind] in E. destruct (_ && _); [|discriminate]. injection E as <-. exact Hs.
Qed.

Lemma data_no_depot (s s1 : rstate) l : read_data parse_float geo s l = Ok s1 -> no_depot s -> no_depot s1.
Proof.
  intros H [H1 H2]. unfold read_data in H. destruct (rs_section s) eqn:Es.
  - apply (weights_no_depot (split l) s); [exact H|]. split; [now rewrite Es|exact H2].
  - unfold item in H. destruct (nth_error _ 1); [|discriminate]. cbn in H. destruct (parse_float _); [|discriminate]. cbn in H.
    destruct (assign _ _ _); [|discriminate]. cbn in H. injection H as <-. split; cbn; [now rewrite Es|exact H2].
  - congruence.
  - unfold item in H. destruct (nth_error _ 1); [|discriminate]. cbn [or_raise bind] in H. destruct (parse_float _); [|discriminate]. cbn [or_raise bind] in H.
    destruct (nth_error _ 2); [|discriminate]. cbn [or_raise bind] in H. destruct (parse_float _); [|discriminate]. cbn [or_raise bind] in H.
    destruct (assign _ _ _); [|discriminate]. cbn [bind] in H. injection H as <-. split; cbn; [now rewrite Es|exact H2].
  - unfold item in H. destruct (nth_error _ 1); [|discriminate]. cbn [or_raise bind] in H. destruct (parse_float _); [|discriminate]. cbn [or_raise bind] in H.
    destruct (nth_error _ 2); [|discriminate]. cbn [or_raise bind] in H. destruct (parse_float _); [|discriminate]. cbn [or_raise bind] in H.
    destruct (assign _ _ _); [|discriminate]. cbn [bind] in H. injection H as <-. split; cbn; [now rewrite Es|exact H2].
  - injection H as <-. split; [now rewrite Es|exact H2].
Qed.

Lemma plain_no_depot (s s1 : rstate) l : read_plain parse_float vzero geo s l = Ok s1 -> contains (str "DEPOT_SECTION") l = false -> no_depot s -> no_depot s1.
Proof.
  intros H Hl Hs. unfold read_plain in H. rewrite Hl in H. destruct Hs as [H1 H2].
  destruct (contains (str "EDGE_WEIGHT_SECTION") l).
  { unfold start_weights in H. destruct (_ <? 0); [discriminate|]. injection H as <-. split; cbn; [discriminate|exact H2]. }
  destruct (contains (str "DEMAND_SECTION") l); [injection H as <-; split; cbn; [discriminate|exact H2]|].
  destruct (contains (str "NODE_COORD_SECTION") l).
  { injection H as <-. destruct (negb _); split; cbn; try discriminate; exact H2. }
  destruct (contains (str "DISPLAY_DATA_SECTION") l).
  { destruct (rs_points s); injection H as <-; split; cbn; try discriminate; exact H2. }
  destruct (contains (str "SVC_TIME_SECTION") l); [injection H as <-; split; cbn; [discriminate|exact H2]|].
  apply (data_no_depot s s1 l H). now split.
Qed.

(** Ordinary lines, then any other: the loop goes on after them. *)
Lemma loop_ordinary pre (s : rstate) : Forall ordinary pre -> no_depot s ->
  (exists e, forall t, loop s (map (fun l => l ++ [newline]) pre ++ t) = Raise e) \/
  (exists s1, no_depot s1 /\ forall t, loop s (map (fun l => l ++ [newline]) pre ++ t) = loop s1 t).
Proof.
  intros HF. revert s. induction HF as [|l pre (_ & He & Hd) HF IH]; intros s Hs.
  - right. exists s. split; [exact Hs|reflexivity].
  - cbn [map app]. destruct (strip l) as [|c x] eqn:El.
    { destruct (IH s Hs) as [(e & H)|(s1 & H1 & H)]; [left; exists e|right; exists s1; split; [exact H1|]];
        intros t'; rewrite loop_blank by (now rewrite strip_newline); apply H. }
    destruct (split_once ":"%char (strip (l ++ [newline]))) as [[f v]|] eqn:Ec.
    + destruct (read_field s (strip f) v) as [s1|e] eqn:Er.
      2:{ left. exists e. intros t'. rewrite (loop_field _ _ _ _ _ _ _ _ Ec), Er. reflexivity. }
      destruct (IH s1 (field_no_depot _ _ _ _ Er Hs)) as [(e & H)|(s2 & H2 & H)]; [left; exists e|right; exists s2; split; [exact H2|]];
        intros t'; rewrite (loop_field _ _ _ _ _ _ _ _ Ec), Er; apply H.
    + assert (Hpl : forall t', loop s ((l ++ [newline]) :: t') = (do s1 <- read_plain parse_float vzero geo s (strip l); loop s1 t')).
      { intros t'. rewrite loop_plain; rewrite ?strip_newline; auto; [now rewrite El|now rewrite strip_newline in Ec|now apply contains_strip]. }
      destruct (read_plain parse_float vzero geo s (strip l)) as [s1|e] eqn:Er.
      2:{ left. exists e. intros t'. now rewrite Hpl. }
      destruct (IH s1 (plain_no_depot _ _ _ Er (contains_strip _ _ Hd) Hs)) as [(e & H)|(s2 & H2 & H)]; [left; exists e|right; exists s2; split; [exact H2|]];
        intros t'; rewrite Hpl; apply H.
Qed.


Lemma loop_depot (s : rstate) k : no_depot s -> exists sec pos,
  loop s (map (fun l => l ++ [newline]) (depot_lines k)) =
  Ok (mkrs sec pos (rs_ij s) (rs_N s) (rs_C s) (rs_points s) (rs_dd s)
             (rs_demands s) (rs_D s) (rs_update s) (rs_ewt s) (rs_ewf s) [Z.of_nat k + 1]).
Proof.
  intros [_ H2]. exists SecDepot, 0%nat. unfold depot_lines. cbn [map].
  rewrite loop_plain by (try discriminate; reflexivity).
  match goal with |- context [read_plain ?a ?b ?c ?s ?l] =>
    replace (read_plain a b c s l) with (Ok (mkrs SecDepot 0 (rs_ij s) (rs_N s) (rs_C s) (rs_points s) (rs_dd s)
             (rs_demands s) (rs_D s) (rs_update s) (rs_ewt s) (rs_ewf s) (rs_depots s))) by reflexivity end.
  cbn [bind]. rewrite loop_data by apply print_int_plain. rewrite strip_tight0 by apply print_int_tight.
  rewrite match_nonempty by apply print_int_nonempty. unfold read_data. cbn [rs_section]. rewrite parse_print_int.
  cbn [or_raise bind]. replace (0 <? Z.of_nat k + 1) with true by (symmetry; apply Z.ltb_lt; lia). cbn [rs_depots]. rewrite H2.
  cbn [app List.length]. change (1 <? 1)%nat with false. cbn [bind].
  rewrite loop_plain by (try discriminate; reflexivity).
  match goal with |- context [read_plain ?a ?b ?c ?s ?l] => replace (read_plain a b c s l) with (Ok s) by reflexivity end.
  cbn [bind]. reflexivity.
Qed.


Lemma move_front_fits {A} k n (l : option (list A)) : list_fits n l -> (k < n)%nat ->
  exists l', move_front k l = Ok l' /\ list_moved k l l'.
Proof.
  intros Hf Hk. destruct l as [l|]; [|exists None; split; [reflexivity|exact I]]. cbn in Hf.
  destruct (move_front_spec k l) as (l' & E & H); [lia|]. exists (Some l'). split; [exact E|exact H].
Qed.

Lemma c35 pre P n D k :
  Forall ordinary pre ->
  read_TSPLIB_CVRP parse_float vzero geo calcD (file_of (pre ++ [str "EOF"])) = Ok P ->
  pb_D P = Some (n, D) -> pb_size P = Z.of_nat n - 1 ->
  pb_ewt P <> Some (str "GEO") -> list_fits n (pb_demands P) -> list_fits n (pb_points P) -> list_fits n (pb_dd P) ->
  (1 <= k < n)%nat ->
  exists P' D', read_TSPLIB_CVRP parse_float vzero geo calcD (file_of (pre ++ depot_lines k)) = Ok P' /\
    pb_size P' = pb_size P /\ pb_C P' = pb_C P /\ pb_ewt P' = pb_ewt P /\
    list_moved k (pb_demands P) (pb_demands P') /\ list_moved k (pb_points P) (pb_points P') /\ list_moved k (pb_dd P) (pb_dd P') /\
    pb_D P' = Some (n, D') /\
    (forall r c, (r < n)%nat -> (c < n)%nat -> D' r c =
       if (r <? n - 1)%nat then (if (old_index k c <? n - 1)%nat then D (old_index k r) (old_index k c) else D r (n - 1)%nat)
       else (if (c <? n - 1)%nat then D (old_index k r) c else D r c)).
Proof.
  intros Hpre HR HD HN Hgeo Hfd Hfp Hfdd Hk. unfold read_TSPLIB_CVRP in *.
  assert (Hol : Forall one_line pre) by (eapply Forall_impl; [|exact Hpre]; intros l H; apply H).
  rewrite readlines_file in HR by (apply Forall_app; split; [exact Hol|apply Forall_cons; [apply one_line_str; reflexivity|apply Forall_nil]]).
  rewrite readlines_file.
  2:{ apply Forall_app; split; [exact Hol|]. unfold depot_lines.
      repeat (apply Forall_cons; [first [apply one_line_str; reflexivity|apply print_int_one_line]|]). apply Forall_nil. }
  rewrite map_app in *.
  destruct (loop_ordinary pre rs_init Hpre) as [(e & H)|(s & Hs & H)]; [split; [discriminate|reflexivity]|rewrite H in HR; discriminate|].
  rewrite H in *. clear H. cbn [map] in HR. rewrite loop_eof in HR by (try discriminate; reflexivity). cbn [bind] in HR.
  destruct (loop_depot s k Hs) as (sec & pos & Ed). rewrite Ed. cbn [bind]. destruct Hs as [_ Hd0].
  unfold finish in *.
  match goal with |- context [complete ?s'] => replace (complete s') with (complete s) by reflexivity end.
  destruct (complete s) as [ok|e]; [|discriminate]. cbn [bind] in *. destruct ok; [|discriminate]. cbn [negb] in *. cbn [rs_update rs_ewt rs_points].
  (* the matrix before relocation *)
  set (upd := if rs_update s then _ else _) in HR.
  match goal with |- exists P' D', (do s0 <- ?u; _) = _ /\ _ => set (upd' := u) end.
  assert (Hupd : exists Dm, upd = Ok (set_matrix s (rs_ij s) Dm) /\
     upd' = Ok (set_matrix (mkrs sec pos (rs_ij s) (rs_N s) (rs_C s) (rs_points s) (rs_dd s)
             (rs_demands s) (rs_D s) (rs_update s) (rs_ewt s) (rs_ewf s) [Z.of_nat k + 1]) (rs_ij s) Dm)).
  { unfold upd, upd' in *. destruct (rs_update s).
    - destruct (calcD (rs_ewt s) match rs_points s with Some p => p | None => [] end) as [Dm|]; [|discriminate]. exists (Some Dm). split; reflexivity.
    - exists (rs_D s). split; [destruct s; reflexivity|reflexivity]. }
  destruct Hupd as (Dm & E1 & E2). rewrite E1 in HR. rewrite E2. clear E1 E2 upd upd'. cbn [bind] in *.
  unfold relocate in HR. cbn [rs_depots set_matrix] in HR. rewrite Hd0 in HR. cbn [bind] in HR.
  assert (Hsame : pb_D P = Dm /\ pb_size P = rs_N s /\ pb_C P = rs_C s /\ pb_ewt P = rs_ewt s /\ pb_demands P = rs_demands s /\
     (if ewt_is s (str "GEO") then pb_points P = None /\ pb_dd P = rs_points s else pb_points P = rs_points s /\ pb_dd P = rs_dd s)).
  { match type of HR with (if ?b then _ else _) = _ => change b with (ewt_is s (str "GEO")) in HR end.
    destruct (ewt_is s (str "GEO")); injection HR as <-; cbn; auto 10. }
  destruct Hsame as (EDm & EN & EC & Eewt & Edem & Epts). clear HR.
  rewrite EDm in HD. rewrite EN in HN.
  unfold relocate. cbn [rs_depots set_matrix rs_D rs_N rs_demands rs_points rs_dd rs_section rs_pos rs_ij rs_C rs_update rs_ewt rs_ewf].
  replace (1 <? Z.of_nat k + 1) with true by (symmetry; apply Z.ltb_lt; lia). rewrite HD.
  replace (Z.to_nat (Z.of_nat k + 1 - 1)) with k by lia.
  replace (Z.to_nat (rs_N s)) with (n - 1)%nat by lia.
  replace (Nat.eqb (n - 1) 0 || ((k <? n)%nat && (n - 1 <=? n)%nat)) with true.
  2:{ symmetry. apply orb_true_intro. right. apply andb_true_intro. split; [apply Nat.ltb_lt|apply Nat.leb_le]; lia. }
  rewrite Edem in Hfd.
  destruct (move_front_fits k n (rs_demands s) Hfd) as (dem' & Edem' & Hdem'); [lia|]. rewrite Edem'. cbn [bind].
  assert (Eg : ewt_is s (str "GEO") = false).
  { unfold ewt_is. rewrite <- Eewt. destruct (pb_ewt P) as [w|]; [|reflexivity].
    destruct (text_eqb w (str "GEO")) eqn:Ew; [|reflexivity]. apply text_eqb_eq in Ew. congruence. }
  rewrite Eg in Epts. destruct Epts as [Ep1 Ep2]. rewrite Ep1 in Hfp. rewrite Ep2 in Hfdd.
  destruct (move_front_fits k n (rs_points s) Hfp) as (pts' & Epts' & Hpts'); [lia|]. rewrite Epts'. cbn [bind].
  destruct (move_front_fits k n (rs_dd s) Hfdd) as (dd' & Edd' & Hdd'); [lia|]. rewrite Edd'. cbn [bind].
  match goal with |- exists P' D', (if ?b then _ else _) = _ /\ _ => change b with (ewt_is s (str "GEO")) end. rewrite Eg.
  eexists _, _. split; [reflexivity|]. cbn [pb_size pb_C pb_ewt pb_demands pb_points pb_dd pb_D rs_N rs_C rs_ewt rs_demands rs_points rs_dd rs_D].
  rewrite Edem, Ep1, Ep2. repeat (split; [now auto|]).
  intros r c Hr Hc. rewrite permute_rows_eq.
  destruct (Nat.ltb_spec r (n - 1)) as [Hr1|Hr1].
  - rewrite permute_columns_eq, !relocation_nth by lia. destruct (Nat.ltb_spec (old_index k c) (n - 1)) as [H|H]; [reflexivity|].
    f_equal. assert (old_index k c < n)%nat; [|lia]. unfold old_index. destruct c; [lia|]. destruct (Nat.leb_spec (S c) k); lia.
  - rewrite permute_columns_eq, relocation_nth by lia. reflexivity.
Qed.

End Depot.
