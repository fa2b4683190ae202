(** * Reading files with coordinates *)
From Verif Require Import Spec PyBase M_text M_io Spec_io P_text P_io P_io2 Spec_coord M_breedam.
Require Import ZifyBool ZifyNat Lia Permutation.

Lemma in_order_stored {A} n (l : list (Z * A)) : in_order n l -> stored_by_id l (Some (map (fun e => Some (snd e)) l)).
Proof.
  intros H. exists (map (fun e => Some (snd e)) l). split; [reflexivity|]. split; [now rewrite map_length|].
  intros id v Hin. apply In_nth_error in Hin as [k Hk].
  assert (Hid : nth_error (map fst l) k = Some id) by (rewrite nth_error_map, Hk; reflexivity).
  rewrite H, nth_error_map in Hid. destruct (nth_error (seq 1 n) k) as [m|] eqn:Em; [|discriminate]. cbn in Hid.
  assert (m = S k).
  { assert (Hk' : (k < n)%nat) by (rewrite <- (seq_length n 1); apply nth_error_Some; congruence).
    apply nth_error_nth with (d := 0%nat) in Em. rewrite seq_nth in Em; [lia|exact Hk']. }
  assert (id = Z.of_nat m) by congruence. subst id. replace (Z.to_nat (Z.of_nat m - 1)) with k by lia.
  rewrite nth_error_map, Hk. reflexivity.
Qed.

Lemma in_order_length {A} n (l : list (Z * A)) : in_order n l -> List.length l = n.
Proof. intros H. apply (f_equal (@List.length Z)) in H. now rewrite !map_length, seq_length in H. Qed.

Section Coord.
Context {V : Type}.
Variable parse_float : text -> option V.
Variable vzero : V.
Variable geo : V -> V.
Variable calcD : option text -> list (option (V * V)) -> option (nat * (nat -> nat -> V)).
Notation rstate := (@rstate V).
Notation loop := (read_loop parse_float vzero geo).
Notation nls := (map (fun l : text => l ++ [newline])).

Definition stored (s : rstate) (p : V * V) : V * V := if ewt_is s (str "GEO") then (geo (fst p), geo (snd p)) else p.

Lemma set_nth_next {A} (done : list A) x y t : set_nth (List.length done) x (done ++ y :: t) = done ++ x :: t.
Proof. induction done as [|a done IH]; [reflexivity|]. cbn. now rewrite IH. Qed.

Lemma assign_next {A} (done : list (option A)) x room :
  assign (done ++ repeat None (S room)) (List.length done) x = Ok ((done ++ [x]) ++ repeat None room).
Proof.
  unfold assign. rewrite app_length, repeat_length.
  replace (List.length done <? List.length done + S room)%nat with true by (symmetry; apply Nat.ltb_lt; lia).
  cbn [repeat]. rewrite set_nth_next. now rewrite <- app_assoc.
Qed.

Lemma split_nonblank l a t : split l = a :: t -> strip l <> [].
Proof. intros E H. apply split_nil_strip in H. congruence. Qed.

Lemma loop_points ls es (s : rstate) done room t :
  Forall2 (point_line parse_float) ls es -> rs_section s = SecCoord -> rs_pos s = List.length done ->
  rs_points s = Some (done ++ repeat None room) -> (List.length es <= room)%nat ->
  loop s (nls ls ++ t) =
  loop (set_points s (List.length done + List.length es)
          (done ++ map (fun e => Some (stored s (snd e))) es ++ repeat None (room - List.length es))) t.
Proof.
  intros HF. revert s done room. induction HF as [|l [id [x y]] ls es (Hp & a & b & c & rest & Es & Ea & Eb & Ec) HF IH]; intros s done room Hs Hpos Hpts Hroom.
  - cbn [map app List.length] in *. rewrite Nat.add_0_r, Nat.sub_0_r. f_equal.
    destruct s; unfold set_points; cbn in *. congruence.
  - cbn in Hroom. destruct room as [|room]; [lia|]. cbn [map app]. rewrite loop_data by exact Hp.
    pose proof (split_nonblank _ _ _ Es) as Hne. destruct (strip l) as [|c0 l0] eqn:El; [easy|]. rewrite <- El.
    unfold read_data. rewrite Hs, split_strip, Es. cbn [item nth_error or_raise bind]. cbn [fst snd] in *. rewrite Eb, Ec. cbn [or_raise bind].
    rewrite Hpts, Hpos, assign_next. cbn [bind].
    change (if ewt_is s (str "GEO") then (geo x, geo y) else (x, y)) with (stored s (x, y)).
    rewrite (IH _ (done ++ [Some (stored s (x, y))]) room).
    + f_equal. unfold set_points. cbn. rewrite app_length. cbn. f_equal; [lia|]. f_equal. rewrite <- app_assoc. cbn. f_equal.
    + cbn. exact Hs.
    + cbn. rewrite app_length. cbn. lia.
    + reflexivity.
    + lia.
Qed.

Lemma loop_loads ls es (s : rstate) done room t :
  Forall2 (load_line parse_float) ls es -> rs_section s = SecDemand -> rs_pos s = List.length done ->
  rs_demands s = Some (done ++ repeat None room) -> (List.length es <= room)%nat ->
  loop s (nls ls ++ t) =
  loop (set_demands s (List.length done + List.length es)
          (done ++ map (fun e => Some (snd e)) es ++ repeat None (room - List.length es))) t.
Proof.
  intros HF. revert s done room. induction HF as [|l [id x] ls es (Hp & a & b & rest & Es & Ea & Eb) HF IH]; intros s done room Hs Hpos Hpts Hroom.
  - cbn [map app List.length] in *. rewrite Nat.add_0_r, Nat.sub_0_r. f_equal.
    destruct s; unfold set_demands; cbn in *. congruence.
  - cbn in Hroom. destruct room as [|room]; [lia|]. cbn [map app]. rewrite loop_data by exact Hp.
    pose proof (split_nonblank _ _ _ Es) as Hne. destruct (strip l) as [|c0 l0] eqn:El; [easy|]. rewrite <- El.
    unfold read_data. rewrite Hs, split_strip, Es. cbn [item nth_error or_raise bind]. cbn [fst snd] in *. rewrite Eb. cbn [or_raise bind].
    rewrite Hpts, Hpos, assign_next. cbn [bind].
    rewrite (IH _ (done ++ [Some x]) room).
    + f_equal. unfold set_demands. cbn. rewrite app_length. cbn. f_equal; [lia|]. f_equal. rewrite <- app_assoc. reflexivity.
    + cbn. exact Hs.
    + cbn. rewrite app_length. cbn. lia.
    + reflexivity.
    + lia.
Qed.

(** A line too many. *)
Lemma loop_point_over l e (s : rstate) done t :
  point_line parse_float l e -> rs_section s = SecCoord -> rs_pos s = List.length done -> rs_points s = Some done ->
  loop s ((l ++ [newline]) :: t) = Raise IndexError.
Proof.
  intros (Hp & a & b & c & rest & Es & Ea & Eb & Ec) Hs Hpos Hpts. rewrite loop_data by exact Hp.
  pose proof (split_nonblank _ _ _ Es) as Hne. destruct (strip l) as [|c0 l0] eqn:El; [easy|]. rewrite <- El.
  unfold read_data. rewrite Hs, split_strip, Es. cbn [item nth_error or_raise bind]. rewrite Eb, Ec. cbn [or_raise bind].
  rewrite Hpts, Hpos. unfold assign. rewrite Nat.ltb_irrefl. reflexivity.
Qed.
Lemma loop_load_over l e (s : rstate) done t :
  load_line parse_float l e -> rs_section s = SecDemand -> rs_pos s = List.length done -> rs_demands s = Some done ->
  loop s ((l ++ [newline]) :: t) = Raise IndexError.
Proof.
  intros (Hp & a & b & rest & Es & Ea & Eb) Hs Hpos Hpts. rewrite loop_data by exact Hp.
  pose proof (split_nonblank _ _ _ Es) as Hne. destruct (strip l) as [|c0 l0] eqn:El; [easy|]. rewrite <- El.
  unfold read_data. rewrite Hs, split_strip, Es. cbn [item nth_error or_raise bind]. rewrite Eb. cbn [or_raise bind].
  rewrite Hpts, Hpos. unfold assign. rewrite Nat.ltb_irrefl. reflexivity.
Qed.

Lemma Forall2_cut {A B} (R : A -> B -> Prop) l l' n : Forall2 R l l' -> (n < List.length l')%nat ->
  exists l1 a l2 l1' b l2', l = l1 ++ a :: l2 /\ l' = l1' ++ b :: l2' /\ Forall2 R l1 l1' /\ R a b /\ List.length l1' = n.
Proof.
  intros H. revert n. induction H as [|x y l l' Hxy H IH]; cbn; intros n Hn; [lia|]. destruct n as [|n].
  - exists [], x, l, [], y, l'. repeat split; auto.
  - destruct (IH n ltac:(lia)) as (l1 & a & l2 & l1' & b & l2' & -> & -> & HR & Hab & Hl).
    exists (x :: l1), a, l2, (y :: l1'), b, l2'. repeat split; auto. cbn. lia.
Qed.

Lemma read_capacity (s : rstate) c t :
  loop s (((str "CAPACITY : " ++ print_int c) ++ [newline]) :: t) = loop (set_C s (Some c)) t.
Proof.
  assert (Es : strip ((str "CAPACITY : " ++ print_int c) ++ [newline]) = str "CAPACITY : " ++ print_int c).
  { rewrite strip_newline. apply strip_tight0, tight_app; try easy; [apply print_int_nospace|apply print_int_nonempty]. }
  rewrite (loop_field _ _ _ _ _ (str "CAPACITY ") (str " " ++ print_int c)) by (rewrite Es; reflexivity).
  change (strip (str "CAPACITY ")) with (str "CAPACITY"). unfold read_field.
  change (text_eqb (str "TYPE") (str "CAPACITY")) with false.
  change (contains (str "DIMENSION") (str "CAPACITY")) with false.
  change (contains (str "CAPACITY") (str "CAPACITY")) with true. cbn beta iota.
  replace (parse_int (str " " ++ print_int c)) with (Some c); [reflexivity|].
  symmetry. rewrite <- (app_nil_r (print_int c)). apply parse_print_int_sp; repeat constructor.
Qed.

Definition any_type (t : text) : Prop := planar t \/ t = str "GEO".

Lemma any_type_elim (P : text -> Prop) : Forall P [str "EUC_2D"; str "CEIL_2D"; str "FLOOR_2D"; str "EXACT_2D"; str "MAX_2D"; str "MAN_2D"; str "ATT"; str "GEO"] ->
  forall t, any_type t -> P t.
Proof.
  intros H t [Ht| ->]; rewrite Forall_forall in H; apply H; [|cbn; tauto]. unfold planar in Ht. cbn in *. tauto.
Qed.

Lemma any_type_line t : any_type t -> one_line t.
Proof. apply any_type_elim. repeat (apply Forall_cons; [apply one_line_str; reflexivity|]); apply Forall_nil. Qed.

Lemma any_type_explicit t : any_type t -> text_eqb t (str "EXPLICIT") = false.
Proof. apply (any_type_elim (fun t => text_eqb t (str "EXPLICIT") = false)). repeat (apply Forall_cons; [reflexivity|]). apply Forall_nil. Qed.

Lemma read_type (s : rstate) e t : any_type e ->
  loop s (((str "EDGE_WEIGHT_TYPE : " ++ e) ++ [newline]) :: t) = loop (set_ewt s e) t.
Proof.
  intros He. rewrite (loop_field _ _ _ _ _ (str "EDGE_WEIGHT_TYPE ") (str " " ++ e)).
  - match goal with |- context [read_field ?s ?a ?b] =>
     replace (read_field s a b) with (Ok (set_ewt s e)); [reflexivity|] end.
    revert e He. apply any_type_elim. repeat (apply Forall_cons; [reflexivity|]). apply Forall_nil.
  - revert e He. apply any_type_elim. repeat (apply Forall_cons; [reflexivity|]). apply Forall_nil.
Qed.

Definition points_state (n : nat) ewt c : rstate :=
  set_update (set_points (set_section (set_C (set_ewt (set_N rs_init (Z.of_nat n - 1)) ewt) (Some c)) SecCoord) 0 (repeat None n)) true.

Lemma read_to_points pre n ewt c ls es ls' es' :
  Forall inert_header pre -> any_type ewt ->
  Forall2 (point_line parse_float) ls es -> Forall2 (load_line parse_float) ls' es' ->
  read_TSPLIB_CVRP parse_float vzero geo calcD (coord_file pre n ewt c ls ls') =
  (do s <- loop (points_state n ewt c)
     (nls ls ++ nls (str "DEMAND_SECTION" :: ls' ++ [str "DEPOT_SECTION"; str " 1"; str " -1"; str "EOF"])); finish calcD s).
Proof.
  intros Hpre He HF HF'. unfold read_TSPLIB_CVRP, coord_file.
  rewrite readlines_file.
  2:{ assert (P1 : Forall one_line ls).
      { apply plain_one_line. clear -HF. induction HF as [|? ? ? ? [H _]]; constructor; auto. }
      assert (P2 : Forall one_line ls').
      { apply plain_one_line. clear -HF'. induction HF' as [|? ? ? ? [H _]]; constructor; auto. }
      rewrite !Forall_app. split; [now apply inert_one_line|]. split; [|split; [exact P1|]].
      - apply Forall_cons; [apply one_line_str; reflexivity|].
        apply Forall_cons; [apply Forall_app; split; [apply one_line_str; reflexivity|apply print_int_one_line]|].
        apply Forall_cons; [apply Forall_app; split; [apply one_line_str; reflexivity|now apply any_type_line]|].
        apply Forall_cons; [apply Forall_app; split; [apply one_line_str; reflexivity|apply print_int_one_line]|].
        apply Forall_cons; [apply one_line_str; reflexivity|]. apply Forall_nil.
      - apply Forall_cons; [apply one_line_str; reflexivity|]. rewrite Forall_app. split; [exact P2|].
        repeat (apply Forall_cons; [apply one_line_str; reflexivity|]). apply Forall_nil. }
  rewrite map_app. rewrite loop_inert by exact Hpre. rewrite map_app. cbn [map app].
  rewrite (loop_field _ _ _ _ _ (str "TYPE ") (str " CVRP")) by reflexivity.
  match goal with |- context [read_field ?s ?a ?b] => replace (read_field s a b) with (Ok s) by reflexivity end.
  cbn [bind]. rewrite read_dimension. rewrite read_type by exact He. rewrite read_capacity.
  rewrite loop_plain by (try discriminate; reflexivity).
  assert (Eexp : text_eqb ewt (str "EXPLICIT") = false) by (now apply any_type_explicit).
  set (s0 := set_C _ _).
  assert (E0 : ewt_is s0 (str "EXPLICIT") = false) by exact Eexp.
  match goal with |- context [read_plain ?a ?b ?c ?s ?l] =>
     replace (read_plain a b c s l) with (Ok (set_update (set_points (set_section s0 SecCoord) 0 (repeat None n)) true)) end.
  2:{ transitivity (Ok (if negb (ewt_is s0 (str "EXPLICIT")) then set_update (set_points (set_section s0 SecCoord) 0 (repeat None (Z.to_nat (rs_N s0 + 1)))) true else set_points (set_section s0 SecCoord) 0 (repeat None (Z.to_nat (rs_N s0 + 1))))).
      - rewrite E0. cbn [negb]. change (rs_N s0) with (Z.of_nat n - 1)%Z. now replace (Z.to_nat (Z.of_nat n - 1 + 1)) with n by lia.
      - reflexivity. }
  cbn [bind]. rewrite map_app. reflexivity.
Qed.

Lemma read_to_loads (s : rstate) n ls' t : rs_N s = Z.of_nat n - 1 ->
  loop s (nls (str "DEMAND_SECTION" :: ls') ++ t) = loop (set_demands (set_section s SecDemand) 0 (repeat None n)) (nls ls' ++ t).
Proof.
  intros HN. cbn [map app]. rewrite loop_plain by (try discriminate; reflexivity).
  match goal with |- context [read_plain ?a ?b ?c ?s ?l] =>
     replace (read_plain a b c s l) with (Ok (set_demands (set_section s SecDemand) 0 (repeat None n))) end; [reflexivity|].
  change (Ok (set_demands (set_section s SecDemand) 0 (repeat None n)) =
         Ok (set_demands (set_section s SecDemand) 0 (repeat None (Z.to_nat (rs_N s + 1))))).
  rewrite HN. now replace (Z.to_nat (Z.of_nat n - 1 + 1)) with n by lia.
Qed.

Definition pad {A} (n : nat) (l : list (option A)) : list (option A) := l ++ repeat None (n - List.length l).

Lemma read_coord_file pre n ewt c ls es ls' es' :
  Forall inert_header pre -> any_type ewt ->
  Forall2 (point_line parse_float) ls es -> (List.length es <= n)%nat ->
  Forall2 (load_line parse_float) ls' es' -> (List.length es' <= n)%nat ->
  let pts := pad n (map (fun e => Some (if text_eqb ewt (str "GEO") then (geo (fst (snd e)), geo (snd (snd e))) else snd e)) es) in
  read_TSPLIB_CVRP parse_float vzero geo calcD (coord_file pre n ewt c ls ls') =
  match calcD (Some ewt) pts with
  | Some D => Ok (mkproblem (Z.of_nat n - 1) (if text_eqb ewt (str "GEO") then None else Some pts)
                    (if text_eqb ewt (str "GEO") then Some pts else None)
                    (Some (pad n (map (fun e => Some (snd e)) es'))) (Some D) (Some c) (Some ewt))
  | None => Raise ValueError
  end.
Proof.
  intros Hpre He HF Hn HF' Hn' pts. rewrite (read_to_points pre n ewt c ls es ls' es') by auto.
  assert (Eexp : text_eqb ewt (str "EXPLICIT") = false) by (now apply any_type_explicit).
  rewrite (loop_points ls es _ [] n) by (auto; reflexivity).
  rewrite <- (app_nil_r (nls (_ :: _))). rewrite (read_to_loads _ n) by reflexivity.
  rewrite app_nil_r, map_app. rewrite (loop_loads ls' es' _ [] n) by (auto; reflexivity).
  cbn [map app List.length Nat.add].
  match goal with |- context [loop ?s _] => pose (sd := s) end.
  match goal with |- bind ?x _ = _ =>
    replace x with (Ok (mkrs SecDepot 0 (rs_ij sd) (rs_N sd) (rs_C sd) (rs_points sd) (rs_dd sd)
             (rs_demands sd) (rs_D sd) (rs_update sd) (rs_ewt sd) (rs_ewf sd) [1])) by reflexivity end.
  cbn [bind]. unfold finish, complete.
  match goal with |- context [ewt_is ?s (str "EXPLICIT")] => change (ewt_is s (str "EXPLICIT")) with (text_eqb ewt (str "EXPLICIT")) end.
  rewrite Eexp. cbn [negb bind]. subst sd. cbn.
  match goal with |- context [calcD _ ?p] => replace p with pts
    by (unfold pts, pad; rewrite map_length; reflexivity) end.
  match goal with |- context [mkrs _ _ _ _ _ _ _ (Some ?p) _ _ _ _ _] => replace p with (pad n (map (fun e => Some (snd e)) es'))
    by (unfold pad; rewrite map_length; reflexivity) end.
  destruct (calcD (Some ewt) pts) as [D|]; [|reflexivity]. cbn [bind relocate rs_depots set_matrix].
  cbn [Z.ltb Z.compare Pos.compare Pos.compare_cont bind]. unfold ewt_is. cbn [rs_ewt set_matrix rs_N rs_points rs_dd rs_demands rs_D rs_C].
  change (["G"%char; "E"%char; "O"%char]) with (str "GEO"). destruct (text_eqb ewt (str "GEO")); reflexivity.
Qed.

Lemma pad_full {A} n (l : list (option A)) : List.length l = n -> pad n l = l.
Proof. intros <-. unfold pad. now rewrite Nat.sub_diag, app_nil_r. Qed.

Lemma c125_by_position pre n ewt c ls es ls' es' D :
  Forall inert_header pre -> planar ewt ->
  Forall2 (point_line parse_float) ls es -> List.length es = n ->
  Forall2 (load_line parse_float) ls' es' -> List.length es' = n ->
  calcD (Some ewt) (map (fun e => Some (snd e)) es) = Some D ->
  read_TSPLIB_CVRP parse_float vzero geo calcD (coord_file pre n ewt c ls ls') =
  Ok (mkproblem (Z.of_nat n - 1) (Some (map (fun e => Some (snd e)) es)) None
        (Some (map (fun e => Some (snd e)) es')) (Some D) (Some c) (Some ewt)).
Proof.
  intros Hpre He HF Hn HF' Hn' HD.
  rewrite (read_coord_file pre n ewt c ls es ls' es'); auto; try lia; [|now left].
  assert (E : text_eqb ewt (str "GEO") = false).
  { clear -He. unfold planar in He. cbn [In] in He. destruct He as [<-|[<-|[<-|[<-|[<-|[<-|[<-|[]]]]]]]]; reflexivity. }
  rewrite E. cbv zeta. rewrite !pad_full by (rewrite map_length; lia). now rewrite HD.
Qed.

Lemma c125_geo pre n c ls es ls' es' D :
  Forall inert_header pre ->
  Forall2 (point_line parse_float) ls es -> List.length es = n ->
  Forall2 (load_line parse_float) ls' es' -> List.length es' = n ->
  calcD (Some (str "GEO")) (map (fun e => Some (geo (fst (snd e)), geo (snd (snd e)))) es) = Some D ->
  read_TSPLIB_CVRP parse_float vzero geo calcD (coord_file pre n (str "GEO") c ls ls') =
  Ok (mkproblem (Z.of_nat n - 1) None (Some (map (fun e => Some (geo (fst (snd e)), geo (snd (snd e)))) es))
        (Some (map (fun e => Some (snd e)) es')) (Some D) (Some c) (Some (str "GEO"))).
Proof.
  intros Hpre HF Hn HF' Hn' HD.
  rewrite (read_coord_file pre n (str "GEO") c ls es ls' es'); auto; try lia; [|now right].
  change (text_eqb (str "GEO") (str "GEO")) with true. cbv zeta iota.
  rewrite !pad_full by (rewrite map_length; lia). now rewrite HD.
Qed.

Lemma c125_in_order pre n ewt c ls es ls' es' D :
  Forall inert_header pre -> planar ewt ->
  Forall2 (point_line parse_float) ls es -> in_order n es ->
  Forall2 (load_line parse_float) ls' es' -> in_order n es' ->
  calcD (Some ewt) (map (fun e => Some (snd e)) es) = Some D ->
  exists P, read_TSPLIB_CVRP parse_float vzero geo calcD (coord_file pre n ewt c ls ls') = Ok P /\
  pb_size P = Z.of_nat n - 1 /\ stored_by_id es (pb_points P) /\ stored_by_id es' (pb_demands P) /\
  pb_D P = Some D /\ pb_C P = Some c /\ pb_ewt P = Some ewt.
Proof.
  intros Hpre He HF Hn HF' Hn' HD. eexists. split.
  - apply c125_by_position; eauto using in_order_length.
  - cbn. repeat split; now apply (in_order_stored n).
Qed.

(** ** Sections with too many or too few lines *)
Lemma c126_many pre n ewt c ls es ls' es' :
  Forall inert_header pre -> any_type ewt ->
  Forall2 (point_line parse_float) ls es -> Forall2 (load_line parse_float) ls' es' ->
  (n < List.length es \/ n < List.length es')%nat ->
  read_TSPLIB_CVRP parse_float vzero geo calcD (coord_file pre n ewt c ls ls') = Raise IndexError.
Proof.
  intros Hpre He HF HF' H. rewrite (read_to_points pre n ewt c ls es ls' es') by auto.
  destruct (Nat.lt_ge_cases n (List.length es)) as [Hn|Hn].
  - destruct (Forall2_cut _ _ _ _ HF Hn) as (l1 & a & l2 & l1' & b & l2' & -> & -> & HR & Hab & Hl).
    rewrite map_app, <- app_assoc. rewrite (loop_points l1 l1' _ [] n) by (auto; try reflexivity; lia).
    cbn [map app]. rewrite Hl, Nat.sub_diag. cbn [repeat]. rewrite app_nil_r.
    rewrite (loop_point_over a b _ (map (fun e => Some (stored (points_state n ewt c) (snd e))) l1')); auto.
    cbn. now rewrite map_length, Hl.
  - assert (Hn' : (n < List.length es')%nat) by lia.
    rewrite (loop_points ls es _ [] n) by (auto; reflexivity).
    destruct (Forall2_cut _ _ _ _ HF' Hn') as (l1 & a & l2 & l1' & b & l2' & -> & -> & HR & Hab & Hl).
    rewrite <- (app_nil_r (nls (_ :: _))). rewrite (read_to_loads _ n) by reflexivity.
    rewrite app_nil_r, <- app_assoc, map_app. rewrite (loop_loads l1 l1' _ [] n) by (auto; try reflexivity; lia).
    cbn [map app]. rewrite Hl, Nat.sub_diag. cbn [repeat]. rewrite app_nil_r.
    rewrite (loop_load_over a b _ (map (fun e => Some (snd e)) l1')); auto.
    cbn. now rewrite map_length, Hl.
Qed.

Lemma pad_none {A} n (l : list (option A)) : (List.length l < n)%nat -> In None (pad n l).
Proof.
  intros H. unfold pad. apply in_or_app. right. destruct (n - List.length l)%nat eqn:E; [lia|]. now left.
Qed.

Lemma c126_few_points pre n ewt c ls es ls' es' :
  Forall inert_header pre -> any_type ewt ->
  Forall2 (point_line parse_float) ls es -> Forall2 (load_line parse_float) ls' es' ->
  (List.length es < n)%nat -> (List.length es' <= n)%nat ->
  (forall e pts, In None pts -> calcD e pts = None) ->
  read_TSPLIB_CVRP parse_float vzero geo calcD (coord_file pre n ewt c ls ls') = Raise ValueError.
Proof.
  intros Hpre He HF HF' H H' HC. rewrite (read_coord_file pre n ewt c ls es ls' es'); auto; [|lia]. cbv zeta.
  rewrite HC; [reflexivity|]. apply pad_none. rewrite map_length. exact H.
Qed.

Lemma c126_rejects pre n ewt c ls es ls' es' :
  Forall inert_header pre -> any_type ewt ->
  Forall2 (point_line parse_float) ls es -> Forall2 (load_line parse_float) ls' es' ->
  (n < List.length es \/ n < List.length es' \/
   List.length es < n /\ forall e pts, In None pts -> calcD e pts = None)%nat ->
  exists e, read_TSPLIB_CVRP parse_float vzero geo calcD (coord_file pre n ewt c ls ls') = Raise e.
Proof.
  intros Hpre He HF HF' H.
  destruct (Nat.lt_ge_cases n (List.length es')) as [Hn'|Hn']; [exists IndexError; apply (c126_many pre n ewt c ls es ls' es'); auto|].
  destruct (Nat.lt_ge_cases n (List.length es)) as [Hn|Hn]; [exists IndexError; apply (c126_many pre n ewt c ls es ls' es'); auto|].
  destruct H as [H|[H|[H HC]]]; [lia|lia|]. exists ValueError. apply (c126_few_points pre n ewt c ls es ls' es'); auto.
Qed.

Lemma c126_few_loads pre n ewt c ls es ls' es' D :
  Forall inert_header pre -> planar ewt ->
  Forall2 (point_line parse_float) ls es -> List.length es = n ->
  Forall2 (load_line parse_float) ls' es' -> (List.length es' < n)%nat ->
  calcD (Some ewt) (map (fun e => Some (snd e)) es) = Some D ->
  exists P, read_TSPLIB_CVRP parse_float vzero geo calcD (coord_file pre n ewt c ls ls') = Ok P /\
  exists ds, pb_demands P = Some ds /\ List.length ds = n /\ nth_error ds (n - 1) = Some None.
Proof.
  intros Hpre He HF Hn HF' Hn' HD.
  rewrite (read_coord_file pre n ewt c ls es ls' es'); auto; try lia; [|now left].
  assert (E : text_eqb ewt (str "GEO") = false).
  { clear -He. unfold planar in He. cbn [In] in He. destruct He as [<-|[<-|[<-|[<-|[<-|[<-|[<-|[]]]]]]]]; reflexivity. }
  rewrite E. cbv zeta. rewrite (pad_full n (map _ es)) by (rewrite map_length; lia). rewrite HD. eexists. split; [reflexivity|].
  eexists. split; [reflexivity|]. unfold pad. rewrite !map_length. split.
  - rewrite app_length, repeat_length, map_length. lia.
  - rewrite nth_error_app2 by (rewrite map_length; lia). rewrite map_length. apply nth_error_repeat. lia.
Qed.

(** ** Van Breedam's files *)
Lemma printable_same c : in_printable c = printable c.
Proof. destruct c as [[] [] [] [] [] [] [] []]; reflexivity. Qed.

Lemma filter_same l : filter in_printable l = filter printable l.
Proof. apply filter_ext. apply printable_same. Qed.

Lemma ints_of ws xs : map parse_int ws = map Some xs -> ints ws = Ok xs.
Proof.
  revert xs. induction ws as [|w ws IH]; intros [|x xs] H; cbn in *; try discriminate; [reflexivity|].
  injection H as H1 H2. rewrite H1. cbn. now rewrite (IH _ H2).
Qed.

Lemma split_newline l : split (l ++ [newline]) = split l.
Proof. unfold split. apply split_aux_end. repeat constructor. Qed.

Lemma rows_read ls rows xys qs : Forall2 line_ints ls rows ->
  exists xys' qs', breedam_rows (nls ls) xys qs = Ok (xys ++ xys', qs ++ qs') /\
  map (fun p => (snd (fst p), snd p)) xys' = map fst (stops_of rows) /\
  map (fun p => snd (fst p)) xys' = map (fun s => fst (fst s)) (stops_of rows) /\
  map snd xys' = map (fun s => snd (fst s)) (stops_of rows) /\
  map snd qs' = map snd (stops_of rows).
Proof.
  intros HF. revert xys qs. induction HF as [|l xs ls rows Hl HF IH]; intros xys qs.
  - exists [], []. cbn. now rewrite !app_nil_r.
  - cbn [map breedam_rows]. rewrite filter_app. change (filter in_printable [newline]) with [newline].
    rewrite split_newline, filter_same, (ints_of _ _ Hl). cbn [bind].
    assert (Skip : stop_of xs = None -> exists xys' qs', breedam_rows (nls ls) xys qs = Ok (xys ++ xys', qs ++ qs') /\
        map (fun p => (snd (fst p), snd p)) xys' = map fst (stops_of (xs :: rows)) /\
        map (fun p => snd (fst p)) xys' = map (fun s => fst (fst s)) (stops_of (xs :: rows)) /\
        map snd xys' = map (fun s => snd (fst s)) (stops_of (xs :: rows)) /\
        map snd qs' = map snd (stops_of (xs :: rows))).
    { intros E. cbn [stops_of]. rewrite E. apply IH. }
    do 10 (destruct xs as [|? xs]; [apply Skip; reflexivity|]). destruct xs as [|? xs]; [|apply Skip; reflexivity].
    clear Skip. cbn [stops_of stop_of].
    edestruct IH as (xys' & qs' & E & E1 & E2 & E3 & E4). rewrite E.
    rewrite <- !app_assoc. cbn [app].
    eexists (_ :: xys'), (_ :: qs'). split; [reflexivity|]. cbn [map fst snd]. rewrite E1, E2, E3, E4. repeat split; reflexivity.
Qed.

End Coord.
