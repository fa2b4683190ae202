(** * Writing an instance and reading it back *)
From Verif Require Import Spec PyBase M_text M_io Spec_io P_text P_io P_io2.
Require Import ZifyBool ZifyNat Lia.

Lemma map_nth_seq {A} (l : list A) d : map (fun c => nth c l d) (seq 0 (List.length l)) = l.
Proof. induction l as [|a l IH]; [reflexivity|]. cbn. f_equal. rewrite <- seq_shift, map_map. exact IH. Qed.

Lemma match_nonempty {A B} (l : list A) (x y : B) : l <> [] -> match l with [] => x | _ => y end = y.
Proof. destruct l; [easy|reflexivity]. Qed.

Section RoundTrip.
Context {V : Type}.
Variable print_val : V -> text.
Variable parse_float : text -> option V.
Variable of_int : Z -> V.
Variable vzero : V.
Variable geo : V -> V.
Variable calcD : option text -> list (option (V * V)) -> option (nat * (nat -> nat -> V)).
Hypothesis NT : number_text print_val parse_float of_int.
Notation rstate := (@rstate V).
Notation loop := (read_loop parse_float vzero geo).

(** ** The weight section *)
Fixpoint row_lines (D : nat -> nat -> V) (idxs : list nat) : list text :=
  match idxs with
  | [] => []
  | i :: rest => match rest with [] => [] | _ => write_row print_val D i rest :: row_lines D rest end
  end.

Lemma write_rows_lines D idxs : write_rows print_val D idxs = file_of (row_lines D idxs).
Proof.
  induction idxs as [|i rest IH]; [reflexivity|]. cbn [write_rows row_lines]. destruct rest as [|j rest].
  - cbn. reflexivity.
  - rewrite IH. unfold file_of. cbn [flat_map]. rewrite <- app_assoc. reflexivity.
Qed.

Lemma write_row_words D i rest : split (write_row print_val D i rest) = map (fun j => print_val (D i j)) rest.
Proof.
  induction rest as [|j rest IH]; [reflexivity|]. unfold write_row in *. cbn [flat_map map].
  rewrite <- app_assoc. change (str " " ++ flat_map (fun j0 => print_val (D i j0) ++ str " ") rest)
    with (" "%char :: flat_map (fun j0 => print_val (D i j0) ++ str " ") rest).
  destruct (nt_word _ _ _ NT (D i j)) as [Hne HF]. rewrite split_word; [now rewrite IH|exact Hne| |reflexivity].
  eapply Forall_impl; [|exact HF]. intros c Hc. apply Hc.
Qed.

Lemma write_row_plain D i rest : plain (write_row print_val D i rest).
Proof.
  unfold write_row, plain. induction rest as [|j rest IH]; cbn [flat_map]; [constructor|].
  rewrite !Forall_app. split; [split|exact IH].
  - destruct (nt_word _ _ _ NT (D i j)) as [_ HF]. eapply Forall_impl; [|exact HF]. intros c Hc. apply Hc.
  - constructor; [|constructor]. repeat split; try discriminate. left. vm_compute. repeat constructor.
Qed.

Lemma row_lines_plain D idxs : Forall plain (row_lines D idxs).
Proof.
  induction idxs as [|i rest IH]; [constructor|]. cbn [row_lines]. destruct rest as [|j rest]; [constructor|].
  constructor; [apply write_row_plain|exact IH].
Qed.

Lemma row_lines_words D idxs :
  flat_map split (row_lines D idxs) =
  map (fun rc => print_val (D (nth (fst rc) idxs 0%nat) (nth (snd rc) idxs 0%nat))) (cells UpperRow (List.length idxs)).
Proof.
  assert (G : forall pre idxs, flat_map split (row_lines D idxs) =
    map (fun rc => print_val (D (nth (fst rc) (pre ++ idxs) 0%nat) (nth (snd rc) (pre ++ idxs) 0%nat)))
        (flat_map (fun r => row r (seq (r + 1) (List.length (pre ++ idxs) - (r + 1)))) (seq (List.length pre) (List.length idxs)))).
  2:{ apply (G []). }
  clear idxs. intros pre idxs. revert pre. induction idxs as [|i rest IH]; intros pre; [reflexivity|].
  cbn [List.length seq flat_map]. rewrite map_app. replace (S (List.length pre)) with (List.length (pre ++ [i])) by (rewrite app_length; cbn; lia).
  specialize (IH (pre ++ [i])). rewrite <- app_assoc in IH. cbn [app] in IH. rewrite <- IH. clear IH.
  assert (E : map (fun rc => print_val (D (nth (fst rc) (pre ++ i :: rest) 0%nat) (nth (snd rc) (pre ++ i :: rest) 0%nat)))
    (row (List.length pre) (seq (List.length pre + 1) (List.length (pre ++ i :: rest) - (List.length pre + 1)))) = map (fun j => print_val (D i j)) rest).
  { unfold row. rewrite map_map. cbn [fst snd]. rewrite app_nth2, Nat.sub_diag by lia. cbn [nth].
    replace (List.length (pre ++ i :: rest) - (List.length pre + 1))%nat with (List.length rest) by (rewrite app_length; cbn; lia).
    transitivity (map (fun c => print_val (D i (nth c rest 0%nat))) (seq 0 (List.length rest))).
    - replace (List.length pre + 1)%nat with (List.length pre + 1 + 0)%nat by lia.
      assert (G : forall k m, map (fun x => print_val (D i (nth x (pre ++ i :: rest) 0%nat))) (seq (List.length pre + 1 + k) m)
                  = map (fun c => print_val (D i (nth c rest 0%nat))) (seq k m)).
      { intros k m. revert k. induction m as [|m IHm]; intros k; [reflexivity|]. cbn [seq map].
        replace (S (List.length pre + 1 + k)) with (List.length pre + 1 + S k)%nat by lia. rewrite IHm. f_equal.
        rewrite app_nth2 by lia. replace (List.length pre + 1 + k - List.length pre)%nat with (S k) by lia. reflexivity. }
      apply G.
    - clear. rewrite <- (map_map (fun c => nth c rest 0%nat) (fun j => print_val (D i j))). f_equal.
      apply map_nth_seq. }
  rewrite E. destruct rest as [|j rest]; [reflexivity|]. cbn [row_lines flat_map]. now rewrite write_row_words.
Qed.

Lemma upper_part_storable D idxs m : storable vzero UpperRow m (upper_part vzero D idxs).
Proof.
  unfold storable, upper_part. split.
  - intros a b _ _. destruct (Nat.ltb_spec a b), (Nat.ltb_spec b a); try reflexivity; lia.
  - intros _ a _. destruct (Nat.ltb_spec a a); [lia|reflexivity].
Qed.

Lemma row_lines_values D idxs :
  Forall2 (fun t rc => parse_float t = Some (upper_part vzero D idxs (fst rc) (snd rc)))
    (flat_map split (row_lines D idxs)) (cells UpperRow (List.length idxs)).
Proof.
  rewrite row_lines_words.
  assert (Hin : forall rc, In rc (cells UpperRow (List.length idxs)) -> (fst rc < snd rc)%nat).
  { intros [r c] H. apply in_cells in H. unfold listed in H. cbn. lia. }
  induction (cells UpperRow (List.length idxs)) as [|rc l IH]; cbn [map]; constructor.
  - rewrite (nt_read _ _ _ NT). unfold upper_part. destruct (Nat.ltb_spec (fst rc) (snd rc)) as [_|H]; [reflexivity|].
    specialize (Hin rc (or_introl eq_refl)). lia.
  - apply IH. intros x Hx. apply Hin. now right.
Qed.

(** ** The header *)
Definition header_lines (vrp : bool) (n m : nat) (C L : option Z) : list text :=
  [str "NAME: temporary"] ++
  (if vrp
   then [str "TYPE: CVRP"; str "CAPACITY: " ++ print_int (match is_nonzero C with Some c => c | None => Z.of_nat n end)]
        ++ (match is_nonzero L with Some l => [str "DISTANCE: " ++ print_int l] | None => [] end)
   else [str "TYPE: TSP"]) ++
  [str "COMMENT: temporary CVRP or TSP problem"; str "DIMENSION: " ++ print_int (Z.of_nat m);
   str "EDGE_WEIGHT_TYPE: EXPLICIT"; str "EDGE_WEIGHT_FORMAT: UPPER_ROW"; str "EDGE_WEIGHT_SECTION"].

(** [d] as it is written after the depot: None for "no demands given". *)
Definition demand_lines (n : nat) (d : list Z) : list text :=
  str "1 0" ::
  match d with
  | [] => map (fun i => print_int (Z.of_nat i) ++ str " 1") (range 2 (n + 1))
  | _ => map (fun i => print_int (Z.of_nat i) ++ str " " ++ print_int (nth (i - 1) d 0)) (range 2 (List.length d + 1))
  end.
Definition trailer_lines (vrp : bool) (n : nat) (d : list Z) : list text :=
  if vrp then [str "DEMAND_SECTION"] ++ demand_lines n d ++ [str "DEPOT_SECTION"; str "1"; str "-1"] else [].

Lemma file_of_app a b : file_of (a ++ b) = file_of a ++ file_of b.
Proof. apply flat_map_app. Qed.
Lemma file_of_map {A} (g : A -> text) l : file_of (map g l) = flat_map (fun x => g x ++ nl) l.
Proof. unfold file_of. induction l as [|x l IH]; [reflexivity|]. cbn [map flat_map]. now rewrite IH. Qed.
Lemma file_of_cons l ls : file_of (l :: ls) = l ++ nl ++ file_of ls.
Proof. unfold file_of. cbn [flat_map]. now rewrite <- app_assoc. Qed.

Lemma range_seq n : range 0 n = seq 0 n.
Proof. unfold range. now rewrite Nat.sub_0_r. Qed.

Lemma write_lines vrp n D d C L sel :
  write_TSPLIB_file print_val vrp n D d C L sel =
  file_of (header_lines vrp n (List.length (selection n sel)) C L ++ row_lines D (selection n sel) ++ trailer_lines vrp n d) ++ str "EOF".
Proof.
  unfold write_TSPLIB_file. rewrite range_seq.
  replace (match sel with [] => seq 0 n | _ :: _ => sel end) with (selection n sel) by reflexivity.
  rewrite !file_of_app, <- write_rows_lines. unfold header_lines, trailer_lines. rewrite !file_of_app.
  destruct vrp.
  - unfold demand_lines. rewrite !file_of_app, !file_of_cons. cbn [app].
    assert (Ed : forall t, match d with
       | [] => flat_map (fun i => print_int (Z.of_nat i) ++ str " 1" ++ nl) (range 2 (n + 1))
       | _ :: _ => flat_map (fun i => print_int (Z.of_nat i) ++ str " " ++ print_int (nth (i - 1) d 0) ++ nl) (range 2 (List.length d + 1))
       end ++ t = file_of (match d with
          | [] => map (fun i => print_int (Z.of_nat i) ++ str " 1") (range 2 (n + 1))
          | _ :: _ => map (fun i => print_int (Z.of_nat i) ++ str " " ++ print_int (nth (i - 1) d 0)) (range 2 (List.length d + 1))
          end) ++ t).
    { intros t. f_equal. destruct d; rewrite file_of_map; apply flat_map_ext; intros i; now rewrite <- ?app_assoc. }
    rewrite Ed. destruct (is_nonzero C), (is_nonzero L); rewrite ?file_of_cons; change (file_of []) with (@nil ascii);
      rewrite ?app_nil_r, <- ?app_assoc; reflexivity.
  - rewrite !file_of_cons. change (file_of []) with (@nil ascii). rewrite ?app_nil_r, <- ?app_assoc. reflexivity.
Qed.

(** ** Reading it *)
Lemma strip_key k z : (match k with [] => False | c :: _ => is_space c = false end) ->
  strip ((k ++ print_int z) ++ [newline]) = k ++ print_int z.
Proof.
  intros H. rewrite strip_newline. apply strip_tight0, tight_app; auto; [destruct k; easy|apply print_int_nospace|apply print_int_nonempty].
Qed.

Lemma parse_sp z : parse_int (str " " ++ print_int z) = Some z.
Proof. rewrite <- (app_nil_r (print_int z)). apply parse_print_int_sp; repeat constructor. Qed.

Lemma loop_inert1 (s : rstate) l t field value : split_once ":"%char (strip (l ++ [newline])) = Some (field, value) ->
  read_field s (strip field) value = Ok s -> loop s ((l ++ [newline]) :: t) = loop s t.
Proof. intros E Er. now rewrite (loop_field _ _ _ _ _ _ _ _ E), Er. Qed.

Definition ready (m : nat) (C : option Z) : rstate :=
  mkrs SecWeights 0 (start_of UpperRow) (Z.of_nat m - 1) C None None None (Some (m, fun _ _ => vzero)) false
       (Some (str "EXPLICIT")) (Some (format_name UpperRow)) [].


Lemma read_written_header vrp n m C L t :
  loop rs_init (map (fun l => l ++ [newline]) (header_lines vrp n m C L) ++ t) = loop (ready m (written_C vrp n C)) t.
Proof.
  assert (Hrest : forall C' : option Z, loop (set_C rs_init C')
            (map (fun l => l ++ [newline]) [str "COMMENT: temporary CVRP or TSP problem"; str "DIMENSION: " ++ print_int (Z.of_nat m);
                 str "EDGE_WEIGHT_TYPE: EXPLICIT"; str "EDGE_WEIGHT_FORMAT: UPPER_ROW"; str "EDGE_WEIGHT_SECTION"] ++ t)
          = loop (ready m C') t).
  { intros C'. cbn [map app].
    rewrite (loop_inert1 _ _ _ (str "COMMENT") (str " temporary CVRP or TSP problem")) by reflexivity.
    rewrite (loop_field _ _ _ _ _ (str "DIMENSION") (str " " ++ print_int (Z.of_nat m))) by (rewrite strip_key by reflexivity; reflexivity).
    match goal with |- context [read_field ?s ?a ?b] => replace (read_field s a b) with (Ok (set_N s (Z.of_nat m - 1))) end.
    2:{ unfold read_field. change (strip (str "DIMENSION")) with (str "DIMENSION"). change (text_eqb (str "TYPE") (str "DIMENSION")) with false.
        change (contains (str "DIMENSION") (str "DIMENSION")) with true. cbn beta iota. rewrite parse_sp. reflexivity. }
    cbn [bind].
    rewrite (loop_field _ _ _ _ _ (str "EDGE_WEIGHT_TYPE") (str " EXPLICIT")) by reflexivity.
    match goal with |- context [read_field ?s ?a ?b] => replace (read_field s a b) with (Ok (set_ewt s (str "EXPLICIT"))) by reflexivity end.
    cbn [bind].
    rewrite (loop_field _ _ _ _ _ (str "EDGE_WEIGHT_FORMAT") (str " UPPER_ROW")) by reflexivity.
    match goal with |- context [read_field ?s ?a ?b] => replace (read_field s a b) with (Ok (set_ewf s (str "UPPER_ROW"))) by reflexivity end.
    cbn [bind]. rewrite loop_plain by (try discriminate; reflexivity).
    match goal with |- context [read_plain ?a ?b ?c ?s ?l] => replace (read_plain a b c s l) with (start_weights b s) by reflexivity end.
    unfold start_weights. cbn [set_ewf set_ewt set_N set_C rs_N rs_init].
    replace (Z.of_nat m - 1 + 1 <? 0) with false by (symmetry; apply Z.ltb_ge; lia).
    replace (Z.to_nat (Z.of_nat m - 1 + 1)) with m by lia. reflexivity. }
  unfold header_lines. rewrite !map_app, <- !app_assoc. cbn [map app].
  rewrite (loop_inert1 _ _ _ (str "NAME") (str " temporary")) by reflexivity.
  destruct vrp.
  - cbn [map app].
    rewrite (loop_inert1 _ _ _ (str "TYPE") (str " CVRP")) by reflexivity.
    set (c := match is_nonzero C with Some c => c | None => Z.of_nat n end).
    replace (written_C true n C) with (Some c) by (unfold c, written_C, is_nonzero; destruct C as [q|]; [destruct (q =? 0)|]; reflexivity).
    rewrite (loop_field _ _ _ _ _ (str "CAPACITY") (str " " ++ print_int c)) by (rewrite strip_key by reflexivity; reflexivity).
    match goal with |- context [read_field ?s ?a ?b] => replace (read_field s a b) with (Ok (set_C s (Some c))) end.
    2:{ unfold read_field. change (strip (str "CAPACITY")) with (str "CAPACITY"). change (text_eqb (str "TYPE") (str "CAPACITY")) with false.
        change (contains (str "DIMENSION") (str "CAPACITY")) with false. change (contains (str "CAPACITY") (str "CAPACITY")) with true.
        cbn beta iota. rewrite parse_sp. reflexivity. }
    cbn [bind]. destruct (is_nonzero L) as [l|]; cbn [map app].
    + rewrite (loop_inert1 _ _ _ (str "DISTANCE") (str " " ++ print_int l)); [apply Hrest| |reflexivity].
      rewrite strip_key by reflexivity. reflexivity.
    + apply Hrest.
  - cbn [map app]. rewrite (loop_inert1 _ _ _ (str "TYPE") (str " TSP")) by reflexivity.
    apply (Hrest None).
Qed.

Lemma read_written_eof (s : rstate) : loop s (readlines (str "EOF")) = Ok s.
Proof. reflexivity. Qed.

Lemma one_line_app a b : one_line a -> one_line b -> one_line (a ++ b).
Proof. intros Ha Hb. apply Forall_app. now split. Qed.

Lemma header_one_line vrp n m C L : Forall one_line (header_lines vrp n m C L).
Proof.
  unfold header_lines. rewrite !Forall_app.
  assert (K : forall k z, forallb (fun c => negb (Ascii.eqb c newline)) k = true -> one_line (k ++ print_int z)).
  { intros k z H. apply one_line_app; [now apply one_line_str|apply print_int_one_line]. }
  repeat split.
  - apply Forall_cons; [apply one_line_str; reflexivity|apply Forall_nil].
  - destruct vrp.
    + apply Forall_cons; [apply one_line_str; reflexivity|]. apply Forall_cons; [now apply K|].
      destruct (is_nonzero L); [apply Forall_cons; [now apply K|]|]; apply Forall_nil.
    + apply Forall_cons; [apply one_line_str; reflexivity|apply Forall_nil].
  - repeat (apply Forall_cons; [first [now apply K | apply one_line_str; reflexivity]|]). apply Forall_nil.
Qed.

Definition demand_line (p : Z * Z) : text := print_int (fst p) ++ str " " ++ print_int (snd p).
Lemma demand_line_plain p : plain (demand_line p).
Proof.
  unfold demand_line, plain. rewrite !Forall_app. repeat split; try apply print_int_plain.
  constructor; [|constructor]. repeat split; try discriminate. left. vm_compute. repeat constructor.
Qed.
Lemma demand_line_words p : split (demand_line p) = [print_int (fst p); print_int (snd p)].
Proof.
  unfold demand_line. change (str " " ++ print_int (snd p)) with (" "%char :: print_int (snd p)).
  rewrite split_word; [|apply print_int_nonempty|apply print_int_nospace|reflexivity].
  rewrite split_last_word; [reflexivity|apply print_int_nonempty|apply print_int_nospace].
Qed.

(** The demands written, the depot first. *)

Lemma demand_lines_pairs n d :
  exists ps, demand_lines n d = map demand_line ps /\ map snd ps = demand_values n d.
Proof.
  unfold demand_lines, demand_values. destruct d as [|x d].
  - exists ((1, 0) :: map (fun i => (Z.of_nat i, 1)) (range 2 (n + 1))). split.
    + cbn [map]. apply (f_equal2 cons); [reflexivity|]. rewrite map_map. apply map_ext. intros i. reflexivity.
    + cbn [map]. f_equal. rewrite map_map. cbn. unfold range. replace (n + 1 - 2)%nat with (n - 1)%nat by lia.
      generalize 2%nat. induction (n - 1)%nat as [|k IH]; intros a; [reflexivity|]. cbn. now rewrite IH.
  - exists ((1, 0) :: map (fun i => (Z.of_nat i, nth (i - 1) (x :: d) 0)) (range 2 (List.length (x :: d) + 1))). split.
    + cbn [map]. apply (f_equal2 cons); [reflexivity|]. rewrite map_map. apply map_ext. intros i. reflexivity.
    + cbn [map]. f_equal. rewrite map_map. cbn [snd]. unfold range. cbn [List.length].
      replace (S (List.length d) + 1 - 2)%nat with (List.length d) by lia.
      rewrite <- (map_nth_seq d 0) at 2. rewrite <- !seq_shift, !map_map. apply map_ext. intros k.
      replace (S (S k) - 1)%nat with (S k) by lia. reflexivity.
Qed.

(** Reading demand lines into a list with room for them. *)
Definition with_demands (s : rstate) pos ds := set_demands s pos ds.

Lemma set_nth_app_mid {A} (l1 : list A) x y l2 : set_nth (List.length l1) x (l1 ++ y :: l2) = l1 ++ x :: l2.
Proof. induction l1 as [|a l1 IH]; [reflexivity|]. cbn. now rewrite IH. Qed.

Lemma loop_demands ps (s : rstate) done room t : rs_section s = SecDemand -> rs_pos s = List.length done ->
  rs_demands s = Some (done ++ repeat None room) -> (List.length ps <= room)%nat ->
  loop s (map (fun l => l ++ [newline]) (map demand_line ps) ++ t) =
  loop (set_demands s (List.length done + List.length ps) (done ++ map (fun p => Some (of_int (snd p))) ps ++ repeat None (room - List.length ps))) t.
Proof.
  revert s done room. induction ps as [|p ps IH]; intros s done room Hs Hp Hd Hl.
  - cbn [map app List.length]. rewrite Nat.add_0_r, Nat.sub_0_r. f_equal. destruct s. cbn in *. subst. reflexivity.
  - cbn [map app]. rewrite loop_data by apply demand_line_plain.
    assert (Es : strip (demand_line p) = demand_line p).
    { apply strip_tight0. unfold demand_line. rewrite app_assoc. apply tight_app.
      - destruct (print_int (fst p)) eqn:E; [now apply print_int_nonempty in E|discriminate].
      - pose proof (print_int_nospace (fst p)) as H. pose proof (print_int_nonempty (fst p)) as Hne.
        destruct (print_int (fst p)); [easy|]. now inversion H.
      - apply print_int_nospace.
      - apply print_int_nonempty. }
    rewrite Es. rewrite match_nonempty.
    2:{ unfold demand_line. destruct (print_int (fst p)) eqn:E; [now apply print_int_nonempty in E|discriminate]. }
    unfold read_data. rewrite Hs, demand_line_words. cbn [item nth_error or_raise bind].
    rewrite (nt_int _ _ _ NT). cbn [or_raise bind]. rewrite Hd, Hp. destruct room as [|room]; [cbn in Hl; lia|].
    unfold assign. rewrite app_length, repeat_length.
    replace (List.length done <? List.length done + S room)%nat with true by (symmetry; apply Nat.ltb_lt; lia).
    cbn [bind repeat]. rewrite set_nth_app_mid.
    rewrite (IH _ (done ++ [Some (of_int (snd p))]) room).
    + f_equal. unfold set_demands. cbn. rewrite app_length. cbn. f_equal; [lia|]. f_equal.
      rewrite <- app_assoc. reflexivity.
    + exact Hs.
    + cbn. rewrite app_length. reflexivity.
    + cbn. now rewrite <- app_assoc.
    + cbn in Hl. lia.
Qed.

Lemma loop_demands_overflow ps (s : rstate) done room t : rs_section s = SecDemand -> rs_pos s = List.length done ->
  rs_demands s = Some (done ++ repeat None room) -> (room < List.length ps)%nat ->
  loop s (map (fun l => l ++ [newline]) (map demand_line ps) ++ t) = Raise IndexError.
Proof.
  intros Hs Hp Hd Hl. replace ps with (firstn room ps ++ skipn room ps) by apply firstn_skipn.
  assert (Hlen : List.length (firstn room ps) = room) by (rewrite firstn_length; lia).
  rewrite !map_app, <- app_assoc. rewrite (loop_demands _ s done room) by (auto; lia).
  rewrite Hlen, Nat.sub_diag. cbn [repeat]. rewrite app_nil_r.
  destruct (skipn room ps) as [|p r] eqn:E.
  { assert (List.length (skipn room ps) = 0)%nat by now rewrite E. rewrite skipn_length in H. lia. }
  cbn [map app]. rewrite loop_data by apply demand_line_plain.
  assert (Hne : strip (demand_line p) <> []).
  { intros E'. assert (Hw := split_strip (demand_line p)). rewrite E', demand_line_words in Hw. discriminate. }
  destruct (strip (demand_line p)) as [|c0 l0] eqn:El; [easy|]. rewrite <- El.
  unfold read_data. cbn [rs_section set_demands]. rewrite Hs. rewrite split_strip, demand_line_words. cbn [item nth_error or_raise bind].
  rewrite (nt_int _ _ _ NT). cbn [or_raise bind rs_demands rs_pos set_demands].
  unfold assign. rewrite app_length, map_length, Hlen.
  replace (List.length done + room <? List.length done + room)%nat with false by (symmetry; apply Nat.ltb_irrefl).
  reflexivity.
Qed.

Lemma c34_weights vrp n D C L sel t : (1 <= List.length (selection n sel))%nat ->
  exists D', (forall a b, (a < List.length (selection n sel))%nat -> (b < List.length (selection n sel))%nat ->
               D' a b = upper_part vzero D (selection n sel) a b) /\
  loop rs_init (map (fun l => l ++ [newline]) (header_lines vrp n (List.length (selection n sel)) C L ++ row_lines D (selection n sel)) ++ t)
  = loop (set_matrix (ready (List.length (selection n sel)) (written_C vrp n C)) (end_of UpperRow (List.length (selection n sel)))
            (Some (List.length (selection n sel), D'))) t.
Proof.
  intros Hn. set (m := List.length (selection n sel)) in *.
  destruct (read_weights_matrix parse_float vzero geo (ready m (written_C vrp n C)) m UpperRow (flat_map split (row_lines D (selection n sel)))
             (upper_part vzero D (selection n sel))) as (D' & E & HD); try reflexivity; auto.
  - apply upper_part_storable.
  - apply row_lines_values.
  - exists D'. split; [exact HD|]. rewrite map_app, <- app_assoc, read_written_header.
    rewrite loop_weights by (auto using row_lines_plain). rewrite E. reflexivity.
Qed.

(** A file without demands. *)
Lemma c34_tsp n D d C L sel : (1 <= List.length (selection n sel))%nat ->
  let m := List.length (selection n sel) in
  exists D', read_TSPLIB_CVRP parse_float vzero geo calcD (write_TSPLIB_file print_val false n D d C L sel) =
    Ok (mkproblem (Z.of_nat m - 1) None None None (Some (m, D')) None (Some (str "EXPLICIT"))) /\
    forall a b, (a < m)%nat -> (b < m)%nat -> D' a b = upper_part vzero D (selection n sel) a b.
Proof.
  intros Hn m. destruct (c34_weights false n D C L sel (readlines (str "EOF")) Hn) as (D' & HD & E).
  exists D'. split; [|exact HD]. unfold read_TSPLIB_CVRP. rewrite write_lines. cbn [trailer_lines]. rewrite app_nil_r.
  rewrite readlines_file_app.
  2:{ rewrite Forall_app. split; [apply header_one_line|apply plain_one_line, row_lines_plain]. }
  rewrite E, read_written_eof. cbn [bind]. unfold finish.
  match goal with |- context [complete ?s] => replace (complete s) with (Ok true) end; [reflexivity|].
  cbn. fold m. now rewrite !Nat.eqb_refl.
Qed.

Lemma trailer_one_line vrp n d : Forall one_line (trailer_lines vrp n d).
Proof.
  unfold trailer_lines. destruct vrp; [|constructor]. rewrite !Forall_app. repeat split.
  - apply Forall_cons; [apply one_line_str; reflexivity|apply Forall_nil].
  - destruct (demand_lines_pairs n d) as (ps & -> & _). apply plain_one_line. apply Forall_forall. intros l Hl.
    apply in_map_iff in Hl as (p & <- & _). apply demand_line_plain.
  - repeat (apply Forall_cons; [apply one_line_str; reflexivity|]). apply Forall_nil.
Qed.

(** A file with demands. *)
Lemma c34_vrp_lines n D d C L sel : (1 <= List.length (selection n sel))%nat ->
  let m := List.length (selection n sel) in
  exists D' ps, (forall a b, (a < m)%nat -> (b < m)%nat -> D' a b = upper_part vzero D (selection n sel) a b) /\
  map snd ps = demand_values n d /\
  read_TSPLIB_CVRP parse_float vzero geo calcD (write_TSPLIB_file print_val true n D d C L sel) =
  (do s <- loop (set_demands (set_section (set_matrix (ready m (written_C true n C)) (end_of UpperRow m) (Some (m, D'))) SecDemand) 0 (repeat None m))
            (map (fun l => l ++ [newline]) (map demand_line ps) ++ map (fun l => l ++ [newline]) [str "DEPOT_SECTION"; str "1"; str "-1"] ++ readlines (str "EOF"));
   finish calcD s).
Proof.
  intros Hn m. destruct (demand_lines_pairs n d) as (ps & Eps & Evals).
  destruct (c34_weights true n D C L sel (map (fun l => l ++ [newline]) (trailer_lines true n d) ++ readlines (str "EOF")) Hn) as (D' & HD & E).
  exists D', ps. split; [exact HD|]. split; [exact Evals|].
  unfold read_TSPLIB_CVRP. rewrite write_lines. rewrite readlines_file_app.
  2:{ rewrite !Forall_app. repeat split; [apply header_one_line|apply plain_one_line, row_lines_plain|apply trailer_one_line]. }
  rewrite app_assoc, map_app, <- app_assoc, E. f_equal.
  unfold trailer_lines. rewrite Eps, !map_app, <- !app_assoc. cbn [map app].
  rewrite loop_plain by (try discriminate; reflexivity).
  match goal with |- context [read_plain ?a ?b ?c ?s ?l] =>
    replace (read_plain a b c s l) with (Ok (set_demands (set_section s SecDemand) 0 (repeat None (Z.to_nat (rs_N s + 1))))) by reflexivity end.
  cbn [bind rs_N set_matrix ready]. fold m. replace (Z.to_nat (Z.of_nat m - 1 + 1)) with m by lia. reflexivity.
Qed.

Lemma demand_values_length n d : (1 <= n)%nat -> (d = [] \/ List.length d = n) -> List.length (demand_values n d) = n.
Proof. intros Hn H. unfold demand_values. destruct d as [|x d]; cbn in *; [rewrite repeat_length; lia|]. destruct H; [discriminate|lia]. Qed.

Lemma c34_vrp n D d C L sel : (1 <= n)%nat -> List.length (selection n sel) = n -> (d = [] \/ List.length d = n) ->
  exists D', read_TSPLIB_CVRP parse_float vzero geo calcD (write_TSPLIB_file print_val true n D d C L sel) =
    Ok (mkproblem (Z.of_nat n - 1) None None (Some (map (fun q => Some (of_int q)) (demand_values n d))) (Some (n, D'))
          (written_C true n C) (Some (str "EXPLICIT"))) /\
    forall a b, (a < n)%nat -> (b < n)%nat -> D' a b = upper_part vzero D (selection n sel) a b.
Proof.
  intros Hn Hm Hd. destruct (c34_vrp_lines n D d C L sel) as (D' & ps & HD & Evals & E); [lia|].
  rewrite Hm in *. exists D'. split; [|exact HD]. rewrite E.
  assert (Hlen : List.length ps = n) by (rewrite <- (map_length snd), Evals; now apply demand_values_length).
  rewrite (loop_demands _ _ [] n) by (try reflexivity; cbn; lia). rewrite Hlen, Nat.sub_diag. cbn [repeat app map List.length].
  rewrite app_nil_r.
  rewrite loop_plain by (try discriminate; reflexivity).
  match goal with |- context [read_plain ?a ?b ?c ?s ?l] =>
    replace (read_plain a b c s l) with (Ok (mkrs SecDepot 0 (rs_ij s) (rs_N s) (rs_C s) (rs_points s) (rs_dd s)
             (rs_demands s) (rs_D s) (rs_update s) (rs_ewt s) (rs_ewf s) (rs_depots s))) by reflexivity end.
  cbn [bind]. rewrite !loop_plain by (try discriminate; reflexivity).
  match goal with |- context [read_plain ?a ?b ?c ?s ?l] => replace (read_plain a b c s l) with (Ok (set_depots s [1])) by reflexivity end.
  cbn [bind]. rewrite loop_plain by (try discriminate; reflexivity).
  match goal with |- context [read_plain ?a ?b ?c ?s ?l] => replace (read_plain a b c s l) with (Ok s) by reflexivity end.
  cbn [bind]. rewrite read_written_eof. cbn [bind].
  rewrite <- Evals, map_map. unfold finish.
  match goal with |- context [complete ?s] => replace (complete s) with (Ok true) end; [reflexivity|].
  cbn. now rewrite !Nat.eqb_refl.
Qed.

(** A proper selection leaves too many demand lines. *)
Lemma c34_vrp_selection n D d C L sel : (1 <= List.length (selection n sel) < n)%nat -> (d = [] \/ List.length d = n) ->
  read_TSPLIB_CVRP parse_float vzero geo calcD (write_TSPLIB_file print_val true n D d C L sel) = Raise IndexError.
Proof.
  intros Hn Hd. destruct (c34_vrp_lines n D d C L sel) as (D' & ps & HD & Evals & E); [lia|]. rewrite E.
  assert (Hlen : List.length ps = n) by (rewrite <- (map_length snd), Evals; apply demand_values_length; [lia|exact Hd]).
  rewrite (loop_demands_overflow _ _ [] (List.length (selection n sel))) by (try reflexivity; cbn; lia). reflexivity.
Qed.

End RoundTrip.

Lemma number_text_Z : number_text print_int parse_int (fun z => z).
Proof.
  split; intros; auto using parse_print_int. split; [apply print_int_nonempty|].
  eapply Forall_impl; [|apply print_int_digits]. intros c. apply digit_char_plain.
Qed.
