(** * Solution formats and additional constraints *)
From Verif Require Import Spec PyBase M_cvrp_ops M_text M_io Spec_io P_base P_text P_io P_io2 P_io3.
Require Import ZifyBool ZifyNat Lia.

(** ** VRPH *)
Lemma vrph_routes_loop rs : Forall customers_only rs ->
  vrph_decode (vrph_loop true (flat_map (fun r => r ++ [0%nat]) rs) ++ [0]) = ([], filter nonempty rs).
Proof.
  assert (Hin : forall r t b, customers_only r ->
    vrph_loop b (r ++ 0%nat :: t) = match r with [] => vrph_loop true t
      | x :: r' => (if b then - Z.of_nat x else Z.of_nat x) :: map Z.of_nat r' ++ vrph_loop true t end).
  { intros r t. induction r as [|x r IH]; intros b Hr; [reflexivity|]. inversion Hr as [|? ? Hx Hr']; subst.
    cbn [vrph_loop app]. replace (Nat.eqb x 0) with false by (symmetry; apply Nat.eqb_neq; exact Hx).
    specialize (IH false Hr'). destruct b; rewrite IH; destruct r as [|y r]; reflexivity. }
  assert (Hdec : forall r l, customers_only r -> vrph_decode (map Z.of_nat r ++ l) =
             let '(o, rs) := vrph_decode l in (r ++ o, rs)).
  { intros r l. induction r as [|x r IH]; intros Hr; [cbn; now destruct (vrph_decode l)|].
    inversion Hr as [|? ? Hx Hr']; subst. cbn [map app vrph_decode].
    replace (Z.of_nat x =? 0) with false by lia. replace (Z.of_nat x <? 0) with false by lia.
    rewrite IH by exact Hr'. destruct (vrph_decode l). rewrite Nat2Z.id. reflexivity. }
  induction 1 as [|r rs Hr _ IH]; [reflexivity|]. cbn [flat_map]. rewrite <- app_assoc. cbn [app].
  rewrite Hin by exact Hr. destruct r as [|x r]; [exact IH|]. inversion Hr as [|? ? Hx Hr']; subst.
  cbn [app vrph_decode]. replace (- Z.of_nat x =? 0) with false by lia. replace (- Z.of_nat x <? 0) with true by lia.
  rewrite <- app_assoc, Hdec by exact Hr'. rewrite IH. rewrite app_nil_r, Z.opp_involutive, Nat2Z.id. reflexivity.
Qed.

Lemma c36_vrph rs : Forall customers_only rs ->
  exists n l, as_VRPH_solution (encode rs) = Ok (n :: l) /\ vrph_routes (n :: l) = filter nonempty rs /\
    (forall x, In x (concat rs) -> Z.of_nat x < n) /\
    (n = 1 \/ exists x, In x (concat rs) /\ n = Z.of_nat x + 1).
Proof.
  intros H. unfold as_VRPH_solution, encode. eexists _, _. split; [reflexivity|]. split; [|split].
  - unfold vrph_routes. cbn [tl vrph_loop]. change (Nat.eqb 0 0) with true. cbn beta iota. now rewrite vrph_routes_loop.
  - assert (Hm : forall l x, In x l -> (x <= fold_right Nat.max 0 l)%nat).
    { intros l x. induction l as [|y l IH]; [easy|]. intros [->|Hi]; cbn; [|specialize (IH Hi)]; lia. }
    intros x Hx. specialize (Hm (0%nat :: flat_map (fun r => r ++ [0%nat]) rs) x). enough (Hi : In x (0%nat :: flat_map (fun r => r ++ [0%nat]) rs)) by (specialize (Hm Hi); lia).
    right. apply in_concat in Hx as (r & Hr & Hx). apply in_flat_map. exists r. split; [exact Hr|]. apply in_or_app. now left.
  - assert (Hm : forall l, fold_right Nat.max 0%nat l = 0%nat \/ In (fold_right Nat.max 0%nat l) l).
    { induction l as [|y l IH]; [now left|]. cbn [fold_right]. destruct (Nat.max_spec y (fold_right Nat.max 0%nat l)) as [[_ ->]|[_ ->]].
      - destruct IH as [->|IH]; [now left|right; now right].
      - right. now left. }
    destruct (Hm (0%nat :: flat_map (fun r => r ++ [0%nat]) rs)) as [E|Hi]; [left; rewrite E; reflexivity|].
    destruct (Nat.eq_dec (fold_right Nat.max 0%nat (0%nat :: flat_map (fun r => r ++ [0%nat]) rs)) 0) as [E|E]; [left; rewrite E; reflexivity|].
    right. eexists. split; [|reflexivity]. destruct Hi as [Hi|Hi]; [congruence|].
    apply in_flat_map in Hi as (r & Hr & Hi). apply in_concat. exists r. split; [exact Hr|].
    apply in_app_or in Hi as [Hi|[Hi|[]]]; [exact Hi|congruence].
Qed.

(** ** OPT *)
Lemma opt_routes_lines rs k : opt_routes (Z.of_nat k) rs = file_of (route_lines (S k) rs).
Proof.
  revert k. induction rs as [|r rs IH]; intros k; [reflexivity|]. cbn [opt_routes route_lines]. unfold file_of. cbn [flat_map].
  unfold route_line. replace (Z.of_nat k + 1) with (Z.of_nat (S k)) by lia. rewrite IH. rewrite <- !app_assoc. reflexivity.
Qed.

Lemma file_of_app a b : file_of (a ++ b) = file_of a ++ file_of b.
Proof. unfold file_of. apply flat_map_app. Qed.

Lemma as_OPT_lines cost sol : as_OPT_solution cost sol =
  file_of (route_lines 1 (list_split sol 0) ++ [str "Cost : " ++ print_cost cost]).
Proof.
  unfold as_OPT_solution. rewrite file_of_app. change 0 with (Z.of_nat 0). rewrite opt_routes_lines.
  rewrite list_split_groups. apply (f_equal2 (@app ascii)); [reflexivity|]. unfold file_of. cbn [flat_map].
  rewrite app_nil_r, <- app_assoc. reflexivity.
Qed.

Lemma split_on_two x a b : ~ In x a -> ~ In x b -> split_on x (a ++ x :: b) = [a; b].
Proof.
  intros Ha Hb. unfold split_on.
  assert (Hend : forall c cur, ~ In x c -> split_on_aux x cur c = [cur ++ c]).
  { induction c as [|y c IH]; intros cur Hc; [cbn; now rewrite app_nil_r|]. cbn.
    destruct (Ascii.eqb_spec y x) as [->|Hne]; [destruct Hc; now left|].
    rewrite IH by (intros Hi; apply Hc; now right). rewrite <- app_assoc. reflexivity. }
  assert (Hmid : forall c cur, ~ In x c -> split_on_aux x cur (c ++ x :: b) = [cur ++ c; b]).
  { induction c as [|y c IH]; intros cur Hc.
    - cbn [app split_on_aux]. rewrite Ascii.eqb_refl, app_nil_r. now rewrite (Hend b []).
    - cbn [app split_on_aux]. destruct (Ascii.eqb_spec y x) as [->|Hne]; [destruct Hc; now left|].
      rewrite IH by (intros Hi; apply Hc; now right). rewrite <- app_assoc. reflexivity. }
  now rewrite Hmid.
Qed.

Lemma split_join ws e : Forall (fun w => w <> [] /\ nospace w) ws -> is_space e = true -> split (join [tab] ws ++ [e]) = ws.
Proof.
  intros H He. induction H as [|w ws [Hw Hn] Hws IH].
  - cbn. unfold split. cbn. now rewrite He.
  - destruct ws as [|w' ws].
    + cbn [join]. rewrite split_word by assumption. reflexivity.
    + change (join [tab] (w :: w' :: ws)) with (w ++ [tab] ++ join [tab] (w' :: ws)). rewrite <- !app_assoc. cbn [app].
      rewrite split_word by (try assumption; reflexivity). now rewrite IH.
Qed.

Lemma parse_ints_print ns : parse_ints (map (fun n => print_int (Z.of_nat n)) ns) = Ok (map Z.of_nat ns).
Proof.
  unfold parse_ints. induction ns as [|n ns IH]; [reflexivity|]. cbn [map fold_right]. rewrite parse_print_int, IH. reflexivity.
Qed.

(** Characters of a list of printed numbers. *)
Definition number_char (c : ascii) : Prop := digit_char c \/ c = tab \/ c = newline \/ c = " "%char.
Lemma numbers_chars ns : Forall number_char (join [tab] (map (fun n => print_int (Z.of_nat n)) ns)).
Proof.
  assert (Hd : forall z, Forall number_char (print_int z)) by (intros z; eapply Forall_impl; [|apply print_int_digits]; intros c H; now left).
  induction ns as [|n ns IH]; [constructor|]. destruct ns as [|m ns]; [cbn; apply Hd|].
  change (join [tab] (map (fun n => print_int (Z.of_nat n)) (n :: m :: ns)))
    with (print_int (Z.of_nat n) ++ [tab] ++ join [tab] (map (fun n => print_int (Z.of_nat n)) (m :: ns))).
  rewrite !Forall_app. split; [apply Hd|]. split; [|exact IH]. constructor; [|constructor]. right. now left.
Qed.

Lemma number_char_code c : number_char c -> (nat_of_ascii c <= 57)%nat.
Proof.
  intros [H|[E|[E|E]]]; try (rewrite E; vm_compute; repeat constructor). destruct H as [E|H]; [rewrite E; vm_compute; repeat constructor|lia].
Qed.
Lemma number_char_not c x : number_char c -> (57 < nat_of_ascii x)%nat -> c <> x.
Proof. intros H Hx E. apply number_char_code in H. rewrite E in H. lia. Qed.

Lemma lower_number c : number_char c -> lower_char c = c.
Proof.
  intros H. apply number_char_code in H. unfold lower_char.
  destruct (65 <=? nat_of_ascii c)%nat eqn:E; [apply Nat.leb_le in E; lia|reflexivity].
Qed.
Lemma lower_numbers s : Forall number_char s -> lower s = s.
Proof. induction 1 as [|c s Hc _ IH]; [reflexivity|]. unfold lower in *. cbn [map]. now rewrite IH, lower_number. Qed.
Lemma lower_app a b : lower (a ++ b) = lower a ++ lower b.
Proof. apply map_app. Qed.

Section Opt.
Context {V : Type}.
Variable parse_float : text -> option V.
Notation oloop := (opt_loop parse_float).

Lemma opt_route_line s k r : opt_line parse_float s (route_line k r ++ [newline]) =
  Ok (match r with [] => fst s | _ => (if Z.eqb (last (fst s) 0) 0 then fst s else fst s ++ [0]) ++ map Z.of_nat r end, snd s).
Proof.
  destruct s as [sol f]. cbn [fst snd].
  set (ns := join [tab] (map (fun n => print_int (Z.of_nat n)) r)).
  assert (Hns : Forall number_char ns) by apply numbers_chars.
  set (pk := print_int (Z.of_nat k)).
  assert (Hpk : Forall number_char pk) by (eapply Forall_impl; [|apply print_int_digits]; intros c H; now left).
  assert (Hl : lower (route_line k r ++ [newline]) = str "route #" ++ (pk ++ str ": " ++ ns ++ [newline])).
  { unfold route_line. fold ns pk. rewrite !lower_app, (lower_numbers ns Hns), (lower_numbers pk Hpk). rewrite <- !app_assoc. reflexivity. }
  unfold opt_line. rewrite Hl.
  assert (Hr : contains (str "route") (str "route #" ++ (pk ++ str ": " ++ ns ++ [newline])) = true) by reflexivity.
  rewrite Hr.
  assert (Hcost : contains (str "cost") (str "route #" ++ (pk ++ str ": " ++ ns ++ [newline])) = false).
  { apply (contains_false _ _ "c"%char); [now left|]. rewrite !in_app_iff. intros [H|[H|[H|[H|H]]]].
    - cbn in H. decompose [or] H; try discriminate; contradiction.
    - rewrite Forall_forall in Hpk. apply Hpk in H. apply number_char_code in H. vm_compute in H. lia.
    - cbn in H. decompose [or] H; try discriminate; contradiction.
    - rewrite Forall_forall in Hns. apply Hns in H. apply number_char_code in H. vm_compute in H. lia.
    - cbn in H. decompose [or] H; try discriminate; contradiction. }
  rewrite Hcost.
  replace (split_on ":" (route_line k r ++ [newline])) with [str "Route #" ++ pk; str " " ++ ns ++ [newline]].
  2:{ symmetry. unfold route_line. fold ns pk. replace ((str "Route #" ++ pk ++ str ": " ++ ns) ++ [newline])
        with ((str "Route #" ++ pk) ++ ":"%char :: (str " " ++ ns ++ [newline])) by (rewrite <- !app_assoc; reflexivity).
      apply split_on_two.
      - rewrite in_app_iff. intros [H|H].
        + cbn in H. decompose [or] H; try discriminate; contradiction.
        + rewrite Forall_forall in Hpk. apply Hpk in H. apply number_char_code in H. vm_compute in H. lia.
      - rewrite !in_app_iff. intros [H|[H|H]].
        + cbn in H. decompose [or] H; try discriminate; contradiction.
        + rewrite Forall_forall in Hns. apply Hns in H. apply number_char_code in H. vm_compute in H. lia.
        + cbn in H. decompose [or] H; try discriminate; contradiction. }
  replace (split (str " " ++ ns ++ [newline])) with (map (fun n => print_int (Z.of_nat n)) r).
  2:{ symmetry. unfold split. rewrite split_aux_spaces by (repeat constructor). apply split_join; [|reflexivity].
      apply Forall_forall. intros w Hw. apply in_map_iff in Hw as (n & <- & _). split; [apply print_int_nonempty|apply print_int_nospace]. }
  rewrite parse_ints_print. cbn [bind]. destruct r as [|n r]; [reflexivity|]. cbn [map].
  destruct (Z.eqb (last sol 0) 0); reflexivity.
Qed.

Lemma route_line_one_line k r : one_line (route_line k r).
Proof.
  unfold route_line, one_line. rewrite !Forall_app. split; [apply one_line_str; reflexivity|]. split; [apply print_int_one_line|].
  split; [apply one_line_str; reflexivity|].
  induction r as [|n r IH]; [constructor|]. destruct r as [|m r]; [apply print_int_one_line|].
  change (join [tab] (map (fun n => print_int (Z.of_nat n)) (n :: m :: r)))
    with (print_int (Z.of_nat n) ++ [tab] ++ join [tab] (map (fun n => print_int (Z.of_nat n)) (m :: r))).
  rewrite !Forall_app. split; [apply print_int_one_line|]. split; [repeat constructor; discriminate|exact IH].
Qed.
Lemma route_lines_one_line k rs : Forall one_line (route_lines k rs).
Proof. revert k. induction rs as [|r rs IH]; intros k; constructor; auto using route_line_one_line. Qed.

Lemma opt_loop_ok ls t s s' : oloop s ls = Ok s' -> oloop s (ls ++ t) = oloop s' t.
Proof.
  revert s. induction ls as [|l ls IH]; intros s H; [injection H as <-; reflexivity|]. cbn [opt_loop app] in *.
  destruct (opt_line parse_float s l) as [s1|e]; [|discriminate]. cbn [bind] in *. now apply IH.
Qed.

Lemma opt_loop_any rs k s : exists s', oloop s (map (fun l => l ++ [newline]) (route_lines k rs)) = Ok s'.
Proof.
  revert k s. induction rs as [|r rs IH]; intros k s; [now exists s|]. cbn [route_lines map opt_loop]. rewrite opt_route_line. cbn [bind]. apply IH.
Qed.

Lemma customers_last r x : customers_only r -> r <> [] -> Z.eqb (last (x ++ map Z.of_nat r) 0) 0 = false.
Proof.
  intros H Hne. destruct (exists_last Hne) as (r' & n & ->). rewrite map_app, app_assoc. cbn [map]. rewrite last_last.
  apply Forall_app in H as [_ H]. inversion H; subst. lia.
Qed.

Lemma opt_loop_routes rs k sol f : Forall customers_only rs -> Forall (fun r => r <> []) rs -> Z.eqb (last sol 0) 0 = false ->
  exists sol', oloop (sol, f) (map (fun l => l ++ [newline]) (route_lines k rs)) = Ok (sol', f) /\
    sol' ++ [0] = sol ++ map Z.of_nat (encode rs) /\ Z.eqb (last sol' 0) 0 = false.
Proof.
  intros Hc Hne. revert k sol. induction Hc as [|r rs Hr Hrs IH]; intros k sol Hl.
  - exists sol. auto.
  - inversion Hne as [|? ? Hr1 Hne']; subst. cbn [route_lines map opt_loop]. rewrite opt_route_line. cbn [bind fst snd].
    rewrite match_nonempty by exact Hr1. rewrite Hl.
    destruct (IH Hne' (S k) ((sol ++ [0]) ++ map Z.of_nat r)) as (sol' & E1 & E2 & E3); [now apply customers_last|].
    exists sol'. split; [exact E1|]. split; [|exact E3]. rewrite E2. unfold encode. cbn [flat_map map].
    rewrite !map_app. cbn [map]. rewrite <- !app_assoc. cbn [app]. reflexivity.
Qed.

(** Routes read, from the start. *)
Lemma opt_loop_all rs k f : Forall customers_only rs -> Forall (fun r => r <> []) rs ->
  exists sol', oloop ([0], f) (map (fun l => l ++ [newline]) (route_lines k rs)) = Ok (sol', f) /\
    (if (1 <? List.length sol')%nat then sol' ++ [0] else sol') = map Z.of_nat (encode rs).
Proof.
  intros Hc Hne. destruct Hc as [|r rs Hr Hrs]; [exists [0]; now split|].
  inversion Hne as [|? ? Hr1 Hne']; subst. cbn [route_lines map opt_loop]. rewrite opt_route_line. cbn [bind fst snd].
  rewrite match_nonempty by exact Hr1. cbn [last]. rewrite Z.eqb_refl.
  destruct (opt_loop_routes rs (S k) ([0] ++ map Z.of_nat r) f Hrs Hne') as (sol' & E1 & E2 & E3); [now apply customers_last|].
  exists sol'. split; [exact E1|].
  assert (Hlen : (1 < List.length sol')%nat).
  { assert (E : List.length (sol' ++ [0]) = List.length (([0] ++ map Z.of_nat r) ++ map Z.of_nat (encode rs))) by now rewrite E2.
    unfold encode in E. rewrite !app_length in E. cbn [map List.length] in E. rewrite !map_length in E. destruct r; [easy|]. cbn [List.length] in E. lia. }
  apply Nat.ltb_lt in Hlen. rewrite Hlen, E2. unfold encode. cbn [flat_map map]. rewrite !map_app. cbn [map]. rewrite <- !app_assoc. reflexivity.
Qed.

Lemma nonempty_filter rs : Forall customers_only rs -> Forall customers_only (filter nonempty rs) /\ Forall (fun r => r <> []) (filter nonempty rs).
Proof.
  intros H. split; apply Forall_forall; intros r Hr; apply filter_In in Hr as [Hi Hn].
  - rewrite Forall_forall in H. now apply H.
  - now destruct r.
Qed.

Lemma encode_filter_self rs : Forall (fun r => r <> []) rs -> filter nonempty rs = rs.
Proof. induction 1 as [|r rs Hr _ IH]; [reflexivity|]. cbn. destruct r; [easy|]. cbn. now rewrite IH. Qed.

(** The text written, line by line. *)
Lemma c36_opt_text cost rs : Forall customers_only rs ->
  as_OPT_solution cost (encode rs) = file_of (route_lines 1 (filter nonempty rs) ++ [str "Cost : " ++ print_cost cost]).
Proof. intros H. now rewrite as_OPT_lines, split_encode. Qed.

Lemma lower_cost w : lower (str "Cost " ++ w) = str "cost " ++ lower w.
Proof. reflexivity. Qed.

(** The format the reader expects. *)
Lemma c36_opt_read rs cost name_k : Forall customers_only rs -> 
  read_OPT_CVRP parse_float true name_k (file_of (route_lines 1 (filter nonempty rs) ++ [str "Cost " ++ print_int cost])) =
  Ok (map Z.of_nat (encode (filter nonempty rs)), Some (inl cost), match name_k with Some k => k | None => 0 end).
Proof.
  intros H. destruct (nonempty_filter rs H) as [Hc Hne]. set (rs' := filter nonempty rs) in *.
  unfold read_OPT_CVRP. rewrite readlines_file.
  2:{ rewrite Forall_app. split; [apply route_lines_one_line|]. apply Forall_cons; [|apply Forall_nil].
      unfold one_line. rewrite Forall_app. split; [apply one_line_str; reflexivity|apply print_int_one_line]. }
  match goal with |- match ?l with [] => _ | _ => _ end = _ => set (ls := l) end.
  replace (match ls with [] => _ | _ => _ end) with (do (solution, opt_f) <- oloop ([0], None) ls;
      Ok (if (1 <? List.length solution)%nat then solution ++ [0] else solution, opt_f,
          match name_k with Some k => if k =? 0 then 0 else k | None => 0 end)) by (destruct ls; reflexivity).
  unfold ls. rewrite map_app. destruct (opt_loop_all rs' 1 None Hc Hne) as (sol & E1 & E2).
  rewrite (opt_loop_ok _ _ _ _ E1). cbn [map opt_loop].
  assert (Hnum : Forall number_char (print_int cost)) by (eapply Forall_impl; [|apply print_int_digits]; intros c Hd; now left).
  assert (El : opt_line parse_float (sol, None) ((str "Cost " ++ print_int cost) ++ [newline]) = Ok (sol, Some (inl cost))).
  { unfold opt_line. rewrite <- app_assoc, lower_cost, lower_app, (lower_numbers _ Hnum).
    replace (contains (str "route") (str "cost " ++ print_int cost ++ lower [newline])) with false.
    2:{ symmetry. apply (contains_false _ _ "r"%char); [now left|]. rewrite !in_app_iff. intros [Hi|[Hi|Hi]].
        - cbn in Hi. decompose [or] Hi; try discriminate; contradiction.
        - rewrite Forall_forall in Hnum. apply Hnum in Hi. apply number_char_code in Hi. vm_compute in Hi. lia.
        - cbn in Hi. decompose [or] Hi; try discriminate; contradiction. }
    cbn [bind].
    replace (contains (str "cost") (str "cost " ++ print_int cost ++ lower [newline])) with true by reflexivity.
    replace (split (str "Cost " ++ print_int cost ++ [newline])) with [str "Cost"; print_int cost].
    2:{ symmetry. change (str "Cost " ++ print_int cost ++ [newline]) with (str "Cost" ++ " "%char :: (print_int cost ++ [newline])).
        rewrite split_word by (try discriminate; try reflexivity; repeat constructor).
        rewrite (split_word (print_int cost) newline []) by (try reflexivity; auto using print_int_nonempty, print_int_nospace). reflexivity. }
    rewrite parse_print_int. reflexivity. }
  rewrite El. cbn [bind]. rewrite E2. destruct name_k as [k|]; [|reflexivity]. destruct (Z.eqb_spec k 0) as [->|]; reflexivity.
Qed.

(** What is written is never read. *)
Lemma c36_opt_refuted cost sol name_k : 
  (forall t, cost = CostFrac t -> t <> [] /\ Forall (fun c => is_space c = false) t) ->
  read_OPT_CVRP parse_float true name_k (as_OPT_solution cost sol) = Raise ValueError.
Proof.
  intros Hcost. rewrite as_OPT_lines.
  assert (Hw : print_cost cost <> [] /\ nospace (print_cost cost)).
  { destruct cost as [z|t]; cbn; [split; [apply print_int_nonempty|apply print_int_nospace]|]. apply Hcost. reflexivity. }
  destruct Hw as [Hw1 Hw2].
  assert (Hone : one_line (print_cost cost)).
  { eapply Forall_impl; [|exact Hw2]. intros c Hc ->. discriminate. }
  unfold read_OPT_CVRP. rewrite readlines_file.
  2:{ rewrite Forall_app. split; [apply route_lines_one_line|]. apply Forall_cons; [|apply Forall_nil].
      unfold one_line. rewrite Forall_app. split; [apply one_line_str; reflexivity|exact Hone]. }
  match goal with |- match ?l with [] => _ | _ => _ end = _ => set (ls := l) end.
  replace (match ls with [] => _ | _ => _ end) with (do (solution, opt_f) <- oloop ([0], None) ls;
      Ok (if (1 <? List.length solution)%nat then solution ++ [0] else solution, opt_f,
          match name_k with Some k => if k =? 0 then 0 else k | None => 0 end)) by (destruct ls; reflexivity).
  unfold ls. rewrite map_app. destruct (opt_loop_any (list_split sol 0) 1 ([0], None)) as (s & E).
  rewrite (opt_loop_ok _ _ _ _ E). cbn [map opt_loop].
  assert (El : opt_line parse_float s ((str "Cost : " ++ print_cost cost) ++ [newline]) = Raise ValueError).
  { unfold opt_line. destruct s as [sol' f].
    rewrite <- app_assoc, lower_app.
    assert (Ht : contains (str "cost") (lower (str "Cost : ") ++ lower (print_cost cost ++ [newline])) = true) by reflexivity.
    rewrite Ht.
    assert (Hsp : split (str "Cost : " ++ print_cost cost ++ [newline]) = [str "Cost"; str ":"; print_cost cost]).
    { change (str "Cost : " ++ print_cost cost ++ [newline]) with (str "Cost" ++ " "%char :: (str ":" ++ " "%char :: (print_cost cost ++ [newline]))).
      rewrite split_word by (try discriminate; try reflexivity; repeat constructor).
      rewrite split_word by (try discriminate; try reflexivity; repeat constructor).
      rewrite (split_word (print_cost cost) newline []) by (try reflexivity; assumption). reflexivity. }
    rewrite Hsp.
    destruct (contains (str "route") _); [|reflexivity].
    destruct (split_on ":" _) as [|a [|b [|]]] eqn:E1; try reflexivity.
    destruct (parse_ints (split b)) as [l|e] eqn:E2; [reflexivity|].
    cbn [bind]. f_equal. clear -E2. revert E2. unfold parse_ints. generalize (split b) as ws. induction ws as [|w ws IH]; [discriminate|].
    cbn [fold_right]. destruct (parse_int w); cbn [or_raise bind]; [|congruence].
    destruct (fold_right _ _ ws); [discriminate|]. cbn [bind]. exact IH. }
  rewrite El. reflexivity.
Qed.
End Opt.
