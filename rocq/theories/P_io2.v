(** * Reading files with explicit matrices *)
From Verif Require Import Spec PyBase M_text M_io Spec_io P_text P_io.
Require Import ZifyBool ZifyNat Lia.


Section Read.
Context {V : Type}.
Variable parse_float : text -> option V.
Variable vzero : V.
Variable geo : V -> V.
Variable calcD : option text -> list (option (V * V)) -> option (nat * (nat -> nat -> V)).
Notation rstate := (@rstate V).
Notation loop := (read_loop parse_float vzero geo).

Lemma loop_field (s : rstate) l field value t : split_once ":"%char (strip l) = Some (field, value) ->
  loop s (l :: t) = (do s1 <- read_field s (strip field) value; loop s1 t).
Proof. intros E. cbn [read_loop]. rewrite E. destruct (strip l); [discriminate|reflexivity]. Qed.

Lemma loop_blank (s : rstate) l t : strip l = [] -> loop s (l :: t) = loop s t.
Proof. intros E. cbn [read_loop]. now rewrite E. Qed.

Lemma loop_plain (s : rstate) l t : strip l <> [] -> split_once ":"%char (strip l) = None -> contains (str "EOF") (strip l) = false ->
  loop s (l :: t) = (do s1 <- read_plain parse_float vzero geo s (strip l); loop s1 t).
Proof. intros Hne E1 E2. cbn [read_loop]. rewrite E1, E2. destruct (strip l); [easy|reflexivity]. Qed.

Lemma loop_eof (s : rstate) l t : strip l <> [] -> split_once ":"%char (strip l) = None -> contains (str "EOF") (strip l) = true ->
  loop s (l :: t) = Ok s.
Proof. intros Hne E1 E2. cbn [read_loop]. rewrite E1, E2. destruct (strip l); [easy|reflexivity]. Qed.

Lemma loop_inert (s : rstate) pre t : Forall inert_header pre ->
  loop s (map (fun l => l ++ [newline]) pre ++ t) = loop s t.
Proof.
  induction 1 as [|l pre (_ & field & value & E & Hty & HF) Hpre IH]; [reflexivity|]. cbn [map app].
  rewrite <- strip_newline in E. rewrite (loop_field _ _ _ _ _ E).
  assert (Er : read_field s (strip field) value = Ok s).
  { unfold read_field. destruct (text_eqb (str "TYPE") (strip field)) eqn:Et.
    { apply text_eqb_eq in Et. congruence. }
    rewrite Forall_forall in HF. rewrite !HF by (cbn [In]; tauto). reflexivity. }
  now rewrite Er.
Qed.

(** A line of numbers and blanks. *)
Lemma plain_strip l : plain l -> plain (strip l).
Proof. apply strip_Forall. Qed.
Lemma plain_no_colon l : plain l -> split_once ":"%char l = None.
Proof.
  intros H. apply split_once_none. intros Hin. unfold plain in H. rewrite Forall_forall in H. destruct (H _ Hin) as [Hc _]. now apply Hc.
Qed.
Lemma plain_no_key l k : plain l -> In "E"%char k -> contains k l = false.
Proof. intros H Hk. apply (plain_contains k l "E"%char H Hk). vm_compute. split; repeat constructor. Qed.

Lemma loop_data (s : rstate) l t : plain l ->
  loop s ((l ++ [newline]) :: t) = match strip l with [] => loop s t | _ => do s1 <- read_data parse_float geo s (strip l); loop s1 t end.
Proof.
  intros H. destruct (strip l) as [|c x] eqn:E.
  - rewrite loop_blank; [reflexivity|]. now rewrite strip_newline.
  - assert (Hp : plain (strip l)) by now apply plain_strip.
    rewrite loop_plain; rewrite strip_newline, E; rewrite E in Hp.
    + unfold read_plain. rewrite !plain_no_key by (auto; cbn; tauto). reflexivity.
    + discriminate.
    + now apply plain_no_colon.
    + apply plain_no_key; [exact Hp|]. cbn. tauto.
Qed.

Lemma read_weights_section (s s1 : rstate) ws : read_weights parse_float s ws = Ok s1 -> rs_section s1 = rs_section s.
Proof.
  revert s. induction ws as [|w ws IH]; intros s H; [cbn in H; congruence|]. cbn [read_weights] in H.
  unfold read_weight in H. destruct (rs_D s) as [[n D]|]; [|cbn in H; discriminate]. destruct (rs_ij s) as [i j].
  destruct (parse_float w) as [v|]; [|cbn in H; discriminate]. cbn [bind or_raise] in H. destruct ((i <? n)%nat && (j <? n)%nat); [|cbn in H; discriminate].
  cbn in H. apply IH in H. exact H.
Qed.

Lemma loop_weights (s : rstate) body t : Forall plain body -> rs_section s = SecWeights ->
  loop s (map (fun l => l ++ [newline]) body ++ t) =
  (do s1 <- read_weights parse_float s (flat_map split body); loop s1 t).
Proof.
  intros HF. revert s. induction HF as [|l body Hl HF IH]; intros s Hs; [reflexivity|].
  cbn [map app flat_map]. rewrite loop_data by exact Hl. rewrite read_weights_app.
  destruct (strip l) as [|c x] eqn:E.
  - rewrite (split_nil_strip l E). cbn [read_weights bind]. now apply IH.
  - unfold read_data. rewrite Hs, <- E, split_strip.
    destruct (read_weights parse_float s (split l)) as [s1|e] eqn:Er; [|reflexivity]. cbn [bind].
    apply IH. rewrite (read_weights_section _ _ _ Er). exact Hs.
Qed.

(** ** The header *)
Definition start_state (n : nat) (f : wformat) : rstate :=
  mkrs SecWeights 0 (start_of f) (Z.of_nat n - 1) None None None None (Some (n, fun _ _ => vzero)) false
       (Some (str "EXPLICIT")) (Some (format_name f)) [].

Lemma format_tight f : tight (format_name f).
Proof. destruct f; split; reflexivity. Qed.

Lemma one_line_str s : forallb (fun c => negb (Ascii.eqb c newline)) s = true -> one_line s.
Proof.
  intros H. unfold one_line. rewrite Forall_forall. rewrite forallb_forall in H. intros c Hc E. specialize (H c Hc). subst c.
  now rewrite Ascii.eqb_refl in H.
Qed.

Lemma read_dimension (s : rstate) n t :
  loop s (((str "DIMENSION : " ++ print_int n) ++ [newline]) :: t) = loop (set_N s (n - 1)) t.
Proof.
  assert (Es : strip ((str "DIMENSION : " ++ print_int n) ++ [newline]) = str "DIMENSION : " ++ print_int n).
  { rewrite strip_newline. apply strip_tight0, tight_app; try easy; [apply print_int_nospace|apply print_int_nonempty]. }
  rewrite (loop_field _ _ (str "DIMENSION ") (str " " ++ print_int n)) by (rewrite Es; reflexivity).
  change (strip (str "DIMENSION ")) with (str "DIMENSION"). unfold read_field.
  change (text_eqb (str "TYPE") (str "DIMENSION")) with false.
  change (contains (str "DIMENSION") (str "DIMENSION")) with true. cbn beta iota.
  replace (parse_int (str " " ++ print_int n)) with (Some n); [reflexivity|].
  symmetry. rewrite <- (app_nil_r (print_int n)). apply parse_print_int_sp; repeat constructor.
Qed.

Lemma read_header (s : rstate) n f t : s = rs_init ->
  loop s (map (fun l => l ++ [newline])
             [ str "DIMENSION : " ++ print_int (Z.of_nat n); str "EDGE_WEIGHT_TYPE : EXPLICIT";
               str "EDGE_WEIGHT_FORMAT : " ++ format_name f; str "EDGE_WEIGHT_SECTION" ] ++ t)
  = loop (start_state n f) t.
Proof.
  intros ->. cbn [map app]. rewrite read_dimension.
  rewrite (loop_field _ _ (str "EDGE_WEIGHT_TYPE ") (str " EXPLICIT")) by reflexivity.
  match goal with |- context [read_field ?s ?a ?b] => let v := eval vm_compute in (strip (str "EDGE_WEIGHT_TYPE ")) in
     replace (read_field s a b) with (Ok (set_ewt s (str "EXPLICIT"))) by reflexivity end.
  cbn [bind].
  rewrite (loop_field _ _ (str "EDGE_WEIGHT_FORMAT ") (str " " ++ format_name f)) by (destruct f; reflexivity).
  match goal with |- context [read_field ?s ?a ?b] =>
     replace (read_field s a b) with (Ok (set_ewf s (format_name f))) by (destruct f; reflexivity) end.
  cbn [bind].
  rewrite loop_plain by (try discriminate; reflexivity).
  match goal with |- context [read_plain ?a ?b ?c ?s ?l] =>
     replace (read_plain a b c s l) with (start_weights b s) by reflexivity end.
  unfold start_weights. cbn [set_ewf set_ewt set_N rs_N rs_init].
  replace (Z.of_nat n - 1 + 1 <? 0) with false by (symmetry; apply Z.ltb_ge; lia).
  replace (Z.to_nat (Z.of_nat n - 1 + 1)) with n by lia. cbn [bind].
  f_equal. destruct f; reflexivity.
Qed.

Lemma inert_one_line pre : Forall inert_header pre -> Forall one_line pre.
Proof. apply Forall_impl. intros l H. apply H. Qed.
Lemma plain_one_line body : Forall plain body -> Forall one_line body.
Proof. apply Forall_impl. intros l H. eapply Forall_impl; [|exact H]. intros c Hc. apply Hc. Qed.

Lemma read_weight_file pre n f body rest : Forall inert_header pre -> Forall plain body ->
  read_TSPLIB_CVRP parse_float vzero geo calcD (weight_file pre n f body rest) =
  (do s <- read_weights parse_float (start_state n f) (flat_map split body); finish calcD s).
Proof.
  intros Hpre Hbody. unfold read_TSPLIB_CVRP, weight_file.
  replace (file_of _) with
    (file_of (pre ++ [str "DIMENSION : " ++ print_int (Z.of_nat n); str "EDGE_WEIGHT_TYPE : EXPLICIT";
                      str "EDGE_WEIGHT_FORMAT : " ++ format_name f; str "EDGE_WEIGHT_SECTION"] ++ body)
     ++ str "EOF" ++ newline :: file_of rest).
  2:{ unfold file_of. rewrite !flat_map_app. cbn [flat_map]. rewrite <- !app_assoc. reflexivity. }
  rewrite readlines_file_app.
  2:{ rewrite !Forall_app. split; [now apply inert_one_line|]. split; [|now apply plain_one_line].
      apply Forall_cons; [apply Forall_app; split; [apply one_line_str; reflexivity|apply print_int_one_line]|].
      apply Forall_cons; [apply one_line_str; reflexivity|].
      apply Forall_cons; [apply Forall_app; split; [|destruct f]; apply one_line_str; reflexivity|].
      apply Forall_cons; [apply one_line_str; reflexivity|]. apply Forall_nil. }
  rewrite readlines_line by (apply one_line_str; reflexivity).
  rewrite !map_app, <- !app_assoc. rewrite loop_inert by exact Hpre. rewrite read_header by reflexivity.
  rewrite loop_weights by (auto; reflexivity).
  destruct (read_weights parse_float (start_state n f) (flat_map split body)) as [s|e]; [|reflexivity].
  cbn [bind]. rewrite loop_eof by (try discriminate; reflexivity). reflexivity.
Qed.

(** ** The end *)
Definition end_state (n : nat) (f : wformat) ij D : rstate := set_matrix (start_state n f) ij (Some (n, D)).

Lemma complete_end n f D : complete (end_state n f (end_of f n) D) = Ok true.
Proof. destruct f; cbn; rewrite ?Nat.eqb_refl; reflexivity. Qed.

Lemma complete_inside n f i j D : (i < n)%nat -> (j < n)%nat -> complete (end_state n f (i, j) D) = Ok false.
Proof.
  intros Hi Hj. assert (Ei : Nat.eqb i n = false) by (apply Nat.eqb_neq; lia). assert (Ej : Nat.eqb j n = false) by (apply Nat.eqb_neq; lia).
  destruct f; unfold complete; cbn [end_state start_state set_matrix rs_ij rs_D];
    repeat match goal with |- context [ewt_is ?a ?b] => let v := eval vm_compute in (ewt_is a b) in change (ewt_is a b) with v end;
    repeat match goal with |- context [ewf_is ?a ?b] => let v := eval vm_compute in (ewf_is a b) in change (ewf_is a b) with v end;
    cbn [negb andb orb]; rewrite ?Ei, ?Ej, ?andb_false_r; reflexivity.
Qed.

Lemma end_out f n : (1 <= n)%nat -> (n <= fst (end_of f n) \/ n <= snd (end_of f n))%nat.
Proof. intros Hn. destruct f; cbn; lia. Qed.

(** Reading all weights of a matrix from any state with an empty matrix. *)
Lemma read_weights_matrix (s : rstate) n f toks M :
  (1 <= n)%nat -> rs_ewf s = Some (format_name f) -> rs_D s = Some (n, fun _ _ => vzero) -> rs_ij s = start_of f ->
  storable vzero f n M ->
  Forall2 (fun t rc => parse_float t = Some (M (fst rc) (snd rc))) toks (cells f n) ->
  exists D, read_weights parse_float s toks = Ok (set_matrix s (end_of f n) (Some (n, D))) /\
            forall a b, (a < n)%nat -> (b < n)%nat -> D a b = M a b.
Proof.
  intros Hn Ef ED Eij [Hsym Hdiag] HF.
  set (ws := map (fun p => M (fst p) (snd p)) (positions f n)).
  assert (Hin : forall p, In p (positions f n) -> (fst p < n /\ snd p < n)%nat) by (intros p; apply positions_in_range).
  assert (Hws : Forall2 (fun t w => parse_float t = Some w) toks ws).
  { assert (E : ws = map (fun p => M (fst p) (snd p)) (cells f n)).
    { unfold ws, positions. destruct f; try reflexivity; rewrite map_map; apply map_ext_in; intros [r c] Hc;
        apply in_cells in Hc; unfold listed in Hc; apply Hsym; cbn; lia. }
    rewrite E. clear -HF. induction HF; cbn; constructor; auto. }
  exists (writes (positions f n) ws (fun _ _ => vzero)).
  rewrite (read_weights_path parse_float f n _ ws (positions f n) s (fun _ _ => vzero) (end_of f n));
    try assumption.
  2:{ rewrite positions_length. now apply Forall2_len in HF. }
  2:{ rewrite Eij. now apply path_positions. }
  split; [reflexivity|].
  intros a b Ha Hb. rewrite (writes_sym M n); auto.
  2:{ unfold ws. clear -Hin. induction (positions f n) as [|p l IH]; cbn; constructor; auto.
      - split; [apply Hin; now left|reflexivity].
      - apply IH. intros q Hq. apply Hin. now right. }
  destruct (existsb _ _) eqn:E; [reflexivity|].
  assert (Hno : forall p, In p (positions f n) -> ~ (p = (a, b) \/ p = (b, a))).
  { intros p Hp Hor. rewrite <- not_true_iff_false in E. apply E. apply existsb_exists. exists p. split; [exact Hp|].
    destruct Hor as [->| ->]; cbn; rewrite !Nat.eqb_refl; cbn; auto using orb_true_r. }
  assert (Hnl : ~ (listed f n a b \/ listed f n b a)).
  { rewrite <- !in_cells. intros Hor.
    assert (Hp : In (a, b) (positions f n) \/ In (b, a) (positions f n)).
    { unfold positions. destruct f; try tauto;
        (destruct Hor as [H|H]; apply (in_map swap) in H; unfold swap in H; cbn in H; auto). }
    destruct Hp as [Hp|Hp]; apply (Hno _ Hp); auto. }
  symmetry. assert (Eab : a = b /\ has_diagonal f = false).
  { destruct (Nat.eq_dec a b) as [->|Hne]; [split; [reflexivity|]|]; destruct f; unfold listed in Hnl; cbn; try reflexivity; exfalso; apply Hnl; lia. }
  destruct Eab as [-> Hd]. now apply Hdiag.
Qed.

Lemma c33_reads pre n f body rest M :
  (1 <= n)%nat -> Forall inert_header pre -> Forall plain body -> storable vzero f n M ->
  Forall2 (fun t rc => parse_float t = Some (M (fst rc) (snd rc))) (flat_map split body) (cells f n) ->
  exists D, read_TSPLIB_CVRP parse_float vzero geo calcD (weight_file pre n f body rest) =
            Ok (mkproblem (Z.of_nat n - 1) None None None (Some (n, D)) None (Some (str "EXPLICIT"))) /\
            forall a b, (a < n)%nat -> (b < n)%nat -> D a b = M a b.
Proof.
  intros Hn Hpre Hbody HM HF. rewrite read_weight_file by assumption.
  destruct (read_weights_matrix (start_state n f) n f (flat_map split body) M) as (D & E & HD); try assumption; try reflexivity.
  exists D. split; [|exact HD]. rewrite E.
  cbn [bind]. unfold finish. fold (end_state n f (end_of f n) D). rewrite complete_end. reflexivity.
Qed.

Lemma c33_rejects pre n f body rest :
  (1 <= n)%nat -> Forall inert_header pre -> Forall plain body ->
  List.length (flat_map split body) <> List.length (cells f n) ->
  exists e, read_TSPLIB_CVRP parse_float vzero geo calcD (weight_file pre n f body rest) = Raise e.
Proof.
  intros Hn Hpre Hbody Hlen. rewrite read_weight_file by assumption.
  destruct (read_weights_any parse_float f n (flat_map split body) (positions f n) (start_state n f) (fun _ _ => vzero) (end_of f n))
    as [[e He]|(ws & D' & HF & Hl & He)]; try reflexivity.
  - now apply path_positions.
  - intros p. apply positions_in_range.
  - now apply end_out.
  - exists e. now rewrite He.
  - rewrite He. cbn [bind]. rewrite <- positions_length in Hlen.
    assert (Hin : In (nth (List.length (flat_map split body)) (positions f n) (end_of f n)) (positions f n)) by (apply nth_In; lia).
    apply positions_in_range in Hin. destruct (nth _ _ _) as [i j]. cbn in Hin.
    unfold finish. fold (end_state n f (i, j) D'). rewrite complete_inside by apply Hin. exists IOError. reflexivity.
Qed.

End Read.
