(** * Lemmas about texts *)
From Coq Require Import DecimalString DecimalZ DecimalFacts.
From Verif Require Import Spec M_text Spec_io.
Require Import ZifyBool ZifyNat Lia.

Lemma bind_Ok {A B} (x : A) (f : A -> outcome B) : bind (Ok x) f = f x.
Proof. reflexivity. Qed.

(** ** Blanks *)
Definition nospace (s : text) : Prop := Forall (fun c => is_space c = false) s.

Lemma newline_space : is_space newline = true. Proof. reflexivity. Qed.

Lemma lstrip_spaces w s : Forall (fun c => is_space c = true) w -> lstrip (w ++ s) = lstrip s.
Proof. induction 1 as [|c w Hc Hw IH]; [reflexivity|]. cbn. now rewrite Hc. Qed.

Lemma lstrip_nospace c s : is_space c = false -> lstrip (c :: s) = c :: s.
Proof. intros H. cbn. now rewrite H. Qed.

Lemma strip_core c s e w : is_space c = false -> is_space e = false ->
  Forall (fun c => is_space c = true) w -> strip (c :: s ++ [e] ++ w) = c :: s ++ [e].
Proof.
  intros Hc He Hw. unfold strip. rewrite lstrip_nospace by exact Hc.
  replace (rev (c :: s ++ [e] ++ w)) with (rev w ++ rev (c :: s ++ [e])).
  2:{ rewrite <- rev_app_distr. cbn [app]. now rewrite <- app_assoc. }
  rewrite lstrip_spaces.
  2:{ now apply Forall_rev. }
  replace (rev (c :: s ++ [e])) with (e :: rev (c :: s)).
  2:{ change (c :: s ++ [e]) with ((c :: s) ++ [e]). rewrite rev_app_distr. reflexivity. }
  rewrite lstrip_nospace by exact He. cbn [rev]. rewrite rev_app_distr, rev_involutive. reflexivity.
Qed.

Lemma strip_one c w : is_space c = false -> Forall (fun c => is_space c = true) w -> strip (c :: w) = [c].
Proof.
  intros Hc Hw. unfold strip. rewrite lstrip_nospace by exact Hc. cbn [rev].
  rewrite lstrip_spaces by (now apply Forall_rev). rewrite lstrip_nospace by exact Hc. reflexivity.
Qed.

Lemma nospace_last s c : nospace (c :: s) -> exists s' e, c :: s = s' ++ [e] /\ is_space e = false.
Proof.
  intros H. destruct (exists_last (l := c :: s)) as (s' & e & E); [easy|]. exists s', e. split; [exact E|].
  unfold nospace in H. rewrite E, Forall_app in H. destruct H as [_ H]. now inversion H.
Qed.

(** A text that starts and ends with characters other than blanks. *)
Definition tight (s : text) : Prop :=
  match s with [] => False | c :: _ => is_space c = false end /\ is_space (last s " "%char) = false.

Lemma strip_tight s w : tight s -> Forall (fun c => is_space c = true) w -> strip (s ++ w) = s.
Proof.
  intros [H1 H2] Hw. destruct s as [|c s]; [easy|]. destruct s as [|c' s].
  - cbn [app]. now apply strip_one.
  - destruct (exists_last (l := c' :: s)) as (s' & e & E); [easy|]. rewrite E in *.
    change ((c :: s' ++ [e]) ++ w) with (c :: (s' ++ [e]) ++ w). rewrite <- app_assoc.
    apply strip_core; auto.
    change (c :: s' ++ [e]) with ((c :: s') ++ [e]) in H2. now rewrite last_last in H2.
Qed.

Lemma strip_tight0 s : tight s -> strip s = s.
Proof. intros H. rewrite <- (app_nil_r s) at 1. apply strip_tight; [exact H|constructor]. Qed.

Lemma tight_app a b : a <> [] -> (match a with [] => False | c :: _ => is_space c = false end) -> nospace b -> b <> [] -> tight (a ++ b).
Proof.
  intros Ha H1 Hb Hne. destruct a as [|c a]; [easy|]. split; [exact H1|].
  destruct b as [|c' b]; [easy|]. destruct (nospace_last _ _ Hb) as (s' & e & E & He).
  rewrite E. rewrite app_assoc, last_last. exact He.
Qed.

Lemma nospace_tight s : s <> [] -> nospace s -> tight s.
Proof.
  intros Hne H. destruct s as [|c s]; [easy|]. split; [now inversion H|].
  destruct (nospace_last _ _ H) as (s' & e & E & He). rewrite E, last_last. exact He.
Qed.

Lemma strip_spaces w : Forall (fun c => is_space c = true) w -> strip w = [].
Proof.
  intros H. unfold strip. rewrite <- (app_nil_r w), lstrip_spaces by exact H. reflexivity.
Qed.

(** Every text is blanks, a stripped part, blanks. *)
Lemma lstrip_decomp s : exists w, Forall (fun c => is_space c = true) w /\ s = w ++ lstrip s /\
  match lstrip s with [] => True | c :: _ => is_space c = false end.
Proof.
  induction s as [|c s (w & Hw & E & Hc)]; [exists []; repeat split; constructor|].
  cbn. destruct (is_space c) eqn:Ec.
  - exists (c :: w). split; [now constructor|]. split; [|exact Hc]. cbn. now rewrite <- E.
  - exists []. split; [constructor|]. split; [reflexivity|exact Ec].
Qed.

Lemma strip_decomp s : exists w1 w2, Forall (fun c => is_space c = true) w1 /\
  Forall (fun c => is_space c = true) w2 /\ s = w1 ++ strip s ++ w2.
Proof.
  destruct (lstrip_decomp s) as (w1 & Hw1 & E1 & _).
  destruct (lstrip_decomp (rev (lstrip s))) as (w2 & Hw2 & E2 & _).
  exists w1, (rev w2). split; [exact Hw1|]. split; [now apply Forall_rev|].
  unfold strip. rewrite <- rev_app_distr, <- E2, rev_involutive. exact E1.
Qed.

Lemma strip_Forall (P : ascii -> Prop) s : Forall P s -> Forall P (strip s).
Proof.
  intros H. destruct (strip_decomp s) as (w1 & w2 & _ & _ & E). rewrite E in H.
  rewrite !Forall_app in H. tauto.
Qed.

(** ** Words *)
Lemma split_aux_spaces w s : Forall (fun c => is_space c = true) w -> split_aux [] (w ++ s) = split_aux [] s.
Proof. induction 1 as [|c w Hc Hw IH]; [reflexivity|]. cbn. now rewrite Hc. Qed.

Lemma split_aux_word w cur s : nospace w -> split_aux cur (w ++ s) = split_aux (cur ++ w) s.
Proof.
  intros H. revert cur. induction H as [|c w Hc Hw IH]; intros cur; [now rewrite app_nil_r|].
  cbn. rewrite Hc, IH, <- app_assoc. reflexivity.
Qed.

Lemma split_aux_end s w cur : Forall (fun c => is_space c = true) w -> split_aux cur (s ++ w) = split_aux cur s.
Proof.
  intros Hw. revert cur. induction s as [|c s IH]; intros cur.
  - cbn [app]. destruct Hw as [|c w Hc Hw]; [reflexivity|]. cbn. rewrite Hc.
    assert (E : split_aux [] w = []) by (rewrite <- (app_nil_r w), split_aux_spaces by exact Hw; reflexivity).
    rewrite E. destruct cur; reflexivity.
  - cbn. destruct (is_space c); [destruct cur|]; now rewrite IH.
Qed.

Lemma split_strip s : split (strip s) = split s.
Proof.
  unfold split. destruct (strip_decomp s) as (w1 & w2 & H1 & H2 & E). rewrite E at 2.
  rewrite split_aux_spaces by exact H1. now rewrite split_aux_end.
Qed.

Lemma split_word w c s : w <> [] -> nospace w -> is_space c = true -> split (w ++ c :: s) = w :: split s.
Proof.
  intros Hne Hw Hc. unfold split. rewrite split_aux_word by exact Hw. cbn. rewrite Hc. destruct w; [easy|reflexivity].
Qed.

Lemma split_last_word w : w <> [] -> nospace w -> split w = [w].
Proof.
  intros Hne Hw. unfold split. rewrite <- (app_nil_r w) at 1. rewrite split_aux_word by exact Hw. destruct w; [easy|reflexivity].
Qed.

Lemma split_nil_strip s : strip s = [] -> split s = [].
Proof. intros E. rewrite <- split_strip, E. reflexivity. Qed.

(** ** Lines *)
Lemma readlines_aux_line l cur s : one_line l -> readlines_aux cur (l ++ newline :: s) = (cur ++ l ++ [newline]) :: readlines_aux [] s.
Proof.
  intros H. revert cur. induction H as [|c l Hc Hl IH]; intros cur; [reflexivity|].
  cbn [readlines_aux app]. destruct (Ascii.eqb_spec c newline) as [E|_]; [contradiction|]. rewrite (IH (cur ++ [c])).
  now rewrite <- (app_assoc cur [c]).
Qed.

Lemma readlines_line l s : one_line l -> readlines (l ++ newline :: s) = (l ++ [newline]) :: readlines s.
Proof. intros H. unfold readlines. now rewrite readlines_aux_line. Qed.

Lemma readlines_last l : l <> [] -> one_line l -> readlines l = [l].
Proof.
  intros Hne H. unfold readlines. assert (E : forall cur, cur ++ l <> [] -> readlines_aux cur l = [cur ++ l]).
  { clear Hne. induction H as [|c l Hc Hl IH]; intros cur Hne; cbn [readlines_aux].
    - rewrite app_nil_r in *. destruct cur; [easy|reflexivity].
    - destruct (Ascii.eqb_spec c newline) as [E|_]; [contradiction|]. rewrite (IH (cur ++ [c])).
      + now rewrite <- (app_assoc cur [c]).
      + destruct cur; discriminate. }
  now apply (E []).
Qed.

Lemma readlines_file_app ls s : Forall one_line ls ->
  readlines (file_of ls ++ s) = map (fun l => l ++ [newline]) ls ++ readlines s.
Proof.
  induction 1 as [|l ls Hl Hls IH]; [reflexivity|].
  unfold file_of in *. cbn [flat_map map app]. rewrite <- !app_assoc. cbn [app].
  rewrite readlines_line by exact Hl. now rewrite IH.
Qed.

Lemma readlines_file ls : Forall one_line ls -> readlines (file_of ls) = map (fun l => l ++ [newline]) ls.
Proof.
  intros H. rewrite <- (app_nil_r (file_of ls)), readlines_file_app by exact H. cbn. apply app_nil_r.
Qed.

(** ** Substrings *)
Lemma is_prefix_in p s c : is_prefix p s = true -> In c p -> In c s.
Proof.
  revert s. induction p as [|a p IH]; intros [|b s] H Hin; try easy.
  cbn in H. apply andb_true_iff in H as [E H]. apply Ascii.eqb_eq in E. subst b.
  destruct Hin as [->|Hin]; [now left|right; eauto].
Qed.

Lemma contains_in p s c : contains p s = true -> In c p -> In c s.
Proof.
  induction s as [|a s IH]; cbn; intros H Hin; apply orb_true_iff in H as [H|H]; try easy.
  - apply (is_prefix_in p [] c H Hin).
  - apply (is_prefix_in p (a :: s) c H Hin).
  - right; auto.
Qed.

Lemma contains_false p s c : In c p -> ~ In c s -> contains p s = false.
Proof. intros H1 H2. destruct (contains p s) eqn:E; [|reflexivity]. destruct H2. eapply contains_in; eauto. Qed.

Lemma plain_contains p s c : plain s -> In c p -> (65 <= nat_of_ascii c <= 90)%nat -> contains p s = false.
Proof.
  intros H Hc Hr. apply (contains_false p s c Hc). intros Hin.
  unfold plain in H. rewrite Forall_forall in H. destruct (H c Hin) as (_ & _ & Hr'). lia.
Qed.

Lemma split_once_none x s : ~ In x s -> split_once x s = None.
Proof.
  induction s as [|c s IH]; intros H; [reflexivity|]. cbn.
  destruct (Ascii.eqb_spec c x) as [E|_]; [destruct H; now left|]. rewrite IH; [reflexivity|]. intros Hin; apply H; now right.
Qed.

Lemma split_once_some x a b : ~ In x a -> split_once x (a ++ x :: b) = Some (a, b).
Proof.
  induction a as [|c a IH]; intros H; cbn.
  - now rewrite Ascii.eqb_refl.
  - destruct (Ascii.eqb_spec c x) as [E|_]; [destruct H; now left|]. rewrite IH; [reflexivity|]. intros Hin; apply H; now right.
Qed.

Lemma text_eqb_refl a : text_eqb a a = true.
Proof. unfold text_eqb. destruct (list_eq_dec ascii_dec a a); congruence. Qed.
Lemma text_eqb_eq a b : text_eqb a b = true <-> a = b.
Proof. unfold text_eqb. destruct (list_eq_dec ascii_dec a b); split; congruence. Qed.

(** ** Numbers *)
(** The characters of a printed int: digits and the minus sign. *)
Definition digit_char (c : ascii) : Prop := c = "-"%char \/ (48 <= nat_of_ascii c <= 57)%nat.

Lemma string_of_uint_digits u : Forall digit_char (str (NilEmpty.string_of_uint u)).
Proof. induction u; cbn; constructor; auto; right; vm_compute; split; repeat constructor. Qed.

Lemma print_int_digits z : Forall digit_char (print_int z).
Proof.
  unfold print_int. destruct (Z.to_int z) as [u|u]; cbn.
  - destruct u; try apply string_of_uint_digits; cbn; constructor; [right; vm_compute; split; repeat constructor|constructor].
  - constructor; [now left|]. destruct u; try apply string_of_uint_digits; cbn; constructor; [right; vm_compute; split; repeat constructor|constructor].
Qed.

Lemma print_int_nonempty z : print_int z <> [].
Proof. unfold print_int. destruct (Z.to_int z) as [u|u]; cbn; [destruct u|]; discriminate. Qed.

Lemma digit_char_plain c : digit_char c -> plain_char c /\ is_space c = false.
Proof.
  intros H. unfold plain_char, is_space. destruct H as [->|H].
  - split; [|reflexivity]. repeat split; try discriminate. left. vm_compute. repeat constructor.
  - assert (E1 : forall c', (48 <= nat_of_ascii c <= 57)%nat -> (nat_of_ascii c' < 48 \/ 57 < nat_of_ascii c')%nat -> c <> c').
    { intros c' Ha Hb ->. lia. }
    repeat split.
    + apply E1; [exact H|]. right. vm_compute. repeat constructor.
    + apply E1; [exact H|]. left. vm_compute. repeat constructor.
    + left. lia.
    + lia.
Qed.

Lemma print_int_plain z : plain (print_int z).
Proof. eapply Forall_impl; [|apply print_int_digits]. intros c H. now apply digit_char_plain. Qed.
Lemma print_int_nospace z : nospace (print_int z).
Proof. eapply Forall_impl; [|apply print_int_digits]. intros c H. now apply digit_char_plain. Qed.
Lemma print_int_one_line z : one_line (print_int z).
Proof. eapply Forall_impl; [|apply print_int_plain]. intros c H. apply H. Qed.
Lemma print_int_tight z : tight (print_int z).
Proof. apply nospace_tight; [apply print_int_nonempty|apply print_int_nospace]. Qed.

Lemma to_int_nonnil z : Z.to_int z <> Decimal.Pos Decimal.Nil /\ Z.to_int z <> Decimal.Neg Decimal.Nil.
Proof.
  assert (Hu : forall p, Pos.to_uint p <> Decimal.Nil) by (intros p; apply DecimalPos.Unsigned.to_uint_nonnil).
  destruct z as [|p|p]; cbn; split; try discriminate; intros [= E]; now apply Hu in E.
Qed.

Lemma parse_print_int z : parse_int (print_int z) = Some z.
Proof.
  unfold parse_int. rewrite strip_tight0 by apply print_int_tight.
  assert (E : match print_int z with
              | [] => []
              | c :: t => if Ascii.eqb c "+" then match t with [] => [] | c' :: _ => if Ascii.eqb c' "-" then [] else t end
                          else print_int z end = print_int z).
  { pose proof (print_int_digits z) as H. destruct (print_int z) as [|c t]; [reflexivity|].
    destruct (Ascii.eqb_spec c "+"%char) as [->|_]; [|reflexivity].
    apply Forall_inv in H. destruct H as [H|H]; [discriminate|]. vm_compute in H. destruct H as [H _].
    exfalso. revert H. clear. intros H. repeat (apply le_S_n in H). inversion H. }
  rewrite E. unfold print_int. rewrite string_of_list_ascii_of_string.
  rewrite NilZero.isi by apply to_int_nonnil. now rewrite DecimalZ.of_to.
Qed.

Lemma parse_int_strip s : parse_int (strip s) = parse_int s.
Proof.
  unfold parse_int. assert (E : strip (strip s) = strip s); [|now rewrite E].
  destruct (strip s) as [|c t] eqn:Es; [reflexivity|]. rewrite <- Es. apply strip_tight0. rewrite Es.
  unfold strip in Es. split.
  - destruct (lstrip_decomp s) as (_ & _ & _ & H). destruct (lstrip s) as [|c0 s0]; [discriminate|].
    destruct (lstrip_decomp (rev (c0 :: s0))) as (w & Hw & E & H').
    assert (E2 : c0 :: s0 = rev (lstrip (rev (c0 :: s0))) ++ rev w).
    { rewrite <- rev_app_distr, <- E. now rewrite rev_involutive. }
    rewrite Es in E2. cbn in E2. injection E2 as -> _. exact H.
  - destruct (lstrip_decomp (rev (lstrip s))) as (w & Hw & E & H').
    destruct (lstrip (rev (lstrip s))) as [|e r]; [discriminate|]. cbn in Es. rewrite <- Es, last_last. exact H'.
Qed.

Lemma parse_print_int_sp z w1 w2 : Forall (fun c => is_space c = true) w1 -> Forall (fun c => is_space c = true) w2 ->
  parse_int (w1 ++ print_int z ++ w2) = Some z.
Proof.
  intros H1 H2. rewrite <- parse_int_strip.
  assert (E : strip (w1 ++ print_int z ++ w2) = print_int z).
  { transitivity (strip (print_int z ++ w2)).
    - unfold strip. now rewrite lstrip_spaces.
    - apply strip_tight; [apply print_int_tight|exact H2]. }
  rewrite E. apply parse_print_int.
Qed.

Lemma strip_app_spaces s w : Forall (fun c => is_space c = true) w -> strip (s ++ w) = strip s.
Proof.
  intros Hw. unfold strip. destruct (lstrip_decomp s) as (w1 & Hw1 & E & Hc).
  destruct (lstrip s) as [|c t] eqn:El.
  - rewrite app_nil_r in E. subst s. rewrite lstrip_spaces by exact Hw1.
    rewrite <- (app_nil_r w), lstrip_spaces by exact Hw. reflexivity.
  - rewrite E, <- app_assoc, lstrip_spaces by exact Hw1. cbn [app]. rewrite lstrip_nospace by exact Hc.
    change (c :: t ++ w) with ((c :: t) ++ w). rewrite rev_app_distr, lstrip_spaces by (now apply Forall_rev). reflexivity.
Qed.

Lemma strip_newline s : strip (s ++ [newline]) = strip s.
Proof. apply strip_app_spaces. repeat constructor. Qed.
