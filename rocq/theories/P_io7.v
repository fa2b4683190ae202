(** * The statements of T_io *)
From Verif Require Import Spec PyBase M_text M_io Spec_io P_text P_io P_io2 P_io3 P_io4 P_io5 P_io6.
Require Import ZifyBool ZifyNat Lia.

Lemma upper_part_symmetric {V} (zero : V) D idxs a b : symmetric_on zero D idxs ->
  (a < List.length idxs)%nat -> (b < List.length idxs)%nat -> upper_part zero D idxs a b = D (nth a idxs 0%nat) (nth b idxs 0%nat).
Proof.
  intros [Hs Hz] Ha Hb. unfold upper_part. destruct (a <? b)%nat eqn:E1; [reflexivity|]. destruct (b <? a)%nat eqn:E2.
  - apply Hs; apply nth_In; assumption.
  - replace b with a by lia. symmetry. apply Hz. now apply nth_In.
Qed.

Section S.
Context {V : Type}.
Variable print_val : V -> text.
Variable parse_float : text -> option V.
Variable of_int : Z -> V.
Variable vzero : V.
Variable geo : V -> V.
Variable calcD : option text -> list (option (V * V)) -> option (nat * (nat -> nat -> V)).

Lemma c34_tsp_sym (NT : number_text print_val parse_float of_int) n D d C L sel : (1 <= List.length (selection n sel))%nat ->
  symmetric_on vzero D (selection n sel) ->
  let m := List.length (selection n sel) in
  exists D', read_TSPLIB_CVRP parse_float vzero geo calcD (write_TSPLIB_file print_val false n D d C L sel) =
    Ok (mkproblem (Z.of_nat m - 1) None None None (Some (m, D')) None (Some (str "EXPLICIT"))) /\
    forall a b, (a < m)%nat -> (b < m)%nat -> D' a b = D (nth a (selection n sel) 0%nat) (nth b (selection n sel) 0%nat).
Proof.
  intros Hn Hs m. destruct (c34_tsp print_val parse_float of_int vzero geo calcD NT n D d C L sel Hn) as (D' & E & HD).
  exists D'. split; [exact E|]. intros a b Ha Hb. rewrite HD by assumption. now apply upper_part_symmetric.
Qed.

Lemma c34_vrp_sym (NT : number_text print_val parse_float of_int) n D d C L : (1 <= n)%nat -> (d = [] \/ List.length d = n) ->
  symmetric_on vzero D (seq 0 n) ->
  exists D', read_TSPLIB_CVRP parse_float vzero geo calcD (write_TSPLIB_file print_val true n D d C L []) =
    Ok (mkproblem (Z.of_nat n - 1) None None (Some (map (fun q => Some (of_int q)) (demand_values n d))) (Some (n, D'))
          (written_C true n C) (Some (str "EXPLICIT"))) /\
    forall a b, (a < n)%nat -> (b < n)%nat -> D' a b = D a b.
Proof.
  intros Hn Hd Hs.
  destruct (c34_vrp print_val parse_float of_int vzero geo calcD NT n D d C L [] Hn) as (D' & E & HD); [apply seq_length|exact Hd|].
  exists D'. split; [exact E|]. intros a b Ha Hb. rewrite HD by assumption. cbn [selection].
  rewrite upper_part_symmetric by (rewrite ?seq_length; assumption). rewrite !seq_nth by assumption. reflexivity.
Qed.

End S.

Section S35.
Context {V : Type}.
Variable parse_float : text -> option V.
Variable vzero : V.
Variable geo : V -> V.
Variable calcD : option text -> list (option (V * V)) -> option (nat * (nat -> nat -> V)).
Lemma c35_partial pre P n D k :
  Forall ordinary pre ->
  read_TSPLIB_CVRP parse_float vzero geo calcD (file_of (pre ++ [str "EOF"])) = Ok P ->
  pb_D P = Some (n, D) -> pb_size P = Z.of_nat n - 1 ->
  pb_ewt P <> Some (str "GEO") -> list_fits n (pb_demands P) -> list_fits n (pb_points P) -> list_fits n (pb_dd P) ->
  (1 <= k < n - 1)%nat ->
  exists P' D', read_TSPLIB_CVRP parse_float vzero geo calcD (file_of (pre ++ depot_lines k)) = Ok P' /\
    pb_size P' = pb_size P /\ pb_C P' = pb_C P /\ pb_ewt P' = pb_ewt P /\
    list_moved k (pb_demands P) (pb_demands P') /\ list_moved k (pb_points P) (pb_points P') /\ list_moved k (pb_dd P) (pb_dd P') /\
    pb_D P' = Some (n, D') /\
    (forall r c, (r < n - 1)%nat -> (c < n - 1)%nat -> D' r c = D (old_index k r) (old_index k c)) /\
    (forall i, (i < n)%nat -> D' i (n - 1)%nat = D i (n - 1)%nat /\ D' (n - 1)%nat i = D (n - 1)%nat i).
Proof.
  intros H1 H2 H3 H4 H5 H6 H7 H8 Hk.
  destruct (c35 parse_float vzero geo calcD pre P n D k H1 H2 H3 H4 H5 H6 H7 H8) as (P' & D' & E & E1 & E2 & E3 & E4 & E5 & E6 & E7 & HD); [lia|].
  exists P', D'. repeat (split; [assumption|]).
  assert (Hin : forall c, (c < n - 1)%nat -> (old_index k c <? n - 1)%nat = true).
  { intros c Hc. apply Nat.ltb_lt. unfold old_index. destruct c; [lia|]. destruct (S c <=? k)%nat; lia. }
  assert (Hlast : old_index k (n - 1) = (n - 1)%nat).
  { unfold old_index. destruct (n - 1)%nat eqn:En; [lia|]. destruct (S n0 <=? k)%nat eqn:El; lia. }
  split.
  - intros r c Hr Hc. rewrite HD by lia. rewrite Hin by exact Hc. now replace (r <? n - 1)%nat with true by lia.
  - intros i Hi. rewrite !HD by lia. rewrite Hlast, Nat.ltb_irrefl. split.
    + now destruct (i <? n - 1)%nat.
    + now destruct (i <? n - 1)%nat.
Qed.

Lemma c35_two pre P k k' :
  Forall ordinary pre ->
  read_TSPLIB_CVRP parse_float vzero geo calcD (file_of (pre ++ [str "EOF"])) = Ok P ->
  read_TSPLIB_CVRP parse_float vzero geo calcD (file_of (pre ++ two_depots_lines k k')) = Raise IOError.
Proof.
  intros Hpre HR. unfold read_TSPLIB_CVRP in *.
  assert (Hol : Forall one_line pre) by (eapply Forall_impl; [|exact Hpre]; intros l H; apply H).
  rewrite readlines_file in HR by (apply Forall_app; split; [exact Hol|apply Forall_cons; [apply one_line_str; reflexivity|apply Forall_nil]]).
  rewrite readlines_file.
  2:{ apply Forall_app; split; [exact Hol|]. unfold two_depots_lines.
      repeat (apply Forall_cons; [first [apply one_line_str; reflexivity|apply print_int_one_line]|]). apply Forall_nil. }
  rewrite map_app in *.
  destruct (loop_ordinary parse_float vzero geo pre (rs_init) Hpre) as [(e & H)|(s & [_ H2] & H)];
    [split; [discriminate|reflexivity]|rewrite H in HR; discriminate|].
  rewrite H. clear H. unfold two_depots_lines. cbn [map].
  rewrite loop_plain by (try discriminate; reflexivity).
  match goal with |- context [read_plain ?a ?b ?c ?s ?l] =>
    replace (read_plain a b c s l) with (Ok (mkrs SecDepot 0 (rs_ij s) (rs_N s) (rs_C s) (rs_points s) (rs_dd s)
             (rs_demands s) (rs_D s) (rs_update s) (rs_ewt s) (rs_ewf s) (rs_depots s))) by reflexivity end.
  cbn [bind]. rewrite loop_data by apply print_int_plain. rewrite strip_tight0 by apply print_int_tight.
  rewrite match_nonempty by apply print_int_nonempty. unfold read_data at 1. cbn [rs_section]. rewrite parse_print_int.
  cbn [or_raise bind]. replace (0 <? Z.of_nat k + 1) with true by (symmetry; apply Z.ltb_lt; lia). cbn [rs_depots]. rewrite H2.
  cbn [app List.length]. change (1 <? 1)%nat with false. cbn [bind].
  rewrite loop_data by apply print_int_plain. rewrite strip_tight0 by apply print_int_tight.
  rewrite match_nonempty by apply print_int_nonempty. unfold read_data at 1, set_depots. cbn [rs_section]. rewrite parse_print_int.
  cbn [or_raise bind]. replace (0 <? Z.of_nat k' + 1) with true by (symmetry; apply Z.ltb_lt; lia). reflexivity.
Qed.

End S35.
