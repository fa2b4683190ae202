(** * Additional constraints: what is written and what is read *)
From Verif Require Import Spec PyBase M_text M_io Spec_io P_text P_io P_io2 P_io3 P_io5.
Require Import ZifyBool ZifyNat Lia.

Section Additional.
Context {V : Type}.
Variable parse_float : text -> option V.
Variable anum_eqb : @anum V -> @anum V -> bool.
Notation aline := (add_line parse_float anum_eqb).
Notation aloop := (add_loop parse_float anum_eqb).


Lemma add_quiet K L ST l : quiet l -> aline (K, L, ST, false) l = Ok (K, L, ST, false).
Proof.
  intros H. unfold quiet in H. rewrite Forall_forall in H. unfold add_line. cbn [bind].
  rewrite !H by (cbn [In]; tauto). reflexivity.
Qed.
Lemma add_quiets K L ST ls t : Forall quiet ls -> aloop (K, L, ST, false) (ls ++ t) = aloop (K, L, ST, false) t.
Proof. induction 1 as [|l ls Hl _ IH]; [reflexivity|]. cbn [app add_loop]. rewrite add_quiet by exact Hl. exact IH. Qed.

Lemma quiet_letters l : (forall w, In w [str "DISTANCE"; str "SERVICE_TIME"; str "VEHICLES"; str "SVC_TIME_SECTION"] ->
   exists c, In c w /\ ~ In c l) -> quiet l.
Proof. intros H. apply Forall_forall. intros w Hw. destruct (H w Hw) as (c & H1 & H2). exact (contains_false w l c H1 H2). Qed.

Lemma plain_no_capital l c : plain l -> (65 <= nat_of_ascii c <= 90)%nat -> ~ In c (l ++ [newline]).
Proof.
  intros H Hc Hi. apply in_app_iff in Hi as [Hi|[<-|[]]]; [|vm_compute in Hc; lia].
  unfold plain in H. rewrite Forall_forall in H. apply H in Hi. unfold plain_char in Hi. lia.
Qed.

Lemma plain_quiet l : plain l -> quiet (l ++ [newline]).
Proof.
  intros H. apply quiet_letters. intros w Hw. exists "E"%char. split.
  - cbn [In] in Hw. decompose [or] Hw; subst; try contradiction; vm_compute; tauto.
  - apply plain_no_capital; [exact H|vm_compute; lia].
Qed.

Definition capital (c : ascii) : bool := ((65 <=? nat_of_ascii c) && (nat_of_ascii c <=? 90))%nat.
Lemma quiet_key key w : forallb (fun k => existsb (fun c => capital c && negb (existsb (Ascii.eqb c) key)) k)
    [str "DISTANCE"; str "SERVICE_TIME"; str "VEHICLES"; str "SVC_TIME_SECTION"] = true ->
  plain w -> quiet ((key ++ w) ++ [newline]).
Proof.
  intros Hk Hw. apply quiet_letters. intros k Hin. rewrite forallb_forall in Hk. apply Hk in Hin.
  apply existsb_exists in Hin as (c & Hc & E). apply andb_true_iff in E as [E1 E2]. exists c. split; [exact Hc|].
  rewrite <- app_assoc, in_app_iff. intros [Hi|Hi].
  - apply negb_true_iff in E2. assert (existsb (Ascii.eqb c) key = true) by (apply existsb_exists; exists c; split; [exact Hi|apply Ascii.eqb_refl]). congruence.
  - revert Hi. apply plain_no_capital; [exact Hw|]. unfold capital in E1. lia.
Qed.

Lemma demand_line_plain p : plain (demand_line p).
Proof.
  unfold demand_line, plain. rewrite !Forall_app. split; [apply print_int_plain|]. split; [|apply print_int_plain].
  constructor; [|constructor]. repeat split; try discriminate. left. vm_compute. repeat constructor.
Qed.

Lemma str_quiet l : forallb (fun k => negb (contains k l)) [str "DISTANCE"; str "SERVICE_TIME"; str "VEHICLES"; str "SVC_TIME_SECTION"] = true -> quiet l.
Proof. intros H. apply Forall_forall. intros k Hk. rewrite forallb_forall in H. apply H in Hk. now apply negb_true_iff in Hk. Qed.

Variable print_val : V -> text.
Variable of_int : Z -> V.
Hypothesis NT : number_text print_val parse_float of_int.

Lemma last_number_int key l : key <> [] -> nospace key -> Forall (fun c => c <> "."%char) key ->
  last_number parse_float ((key ++ str " " ++ print_int l) ++ [newline]) = Ok (AInt l).
Proof.
  intros Hne Hk Hdot. unfold last_number.
  replace (split ((key ++ str " " ++ print_int l) ++ [newline])) with [key; print_int l].
  2:{ symmetry. rewrite <- !app_assoc. change (str " " ++ print_int l ++ [newline]) with (" "%char :: (print_int l ++ [newline])).
      rewrite split_word by (try assumption; reflexivity).
      rewrite (split_word (print_int l) newline []) by (try reflexivity; auto using print_int_nonempty, print_int_nospace). reflexivity. }
  cbn [rev app].
  replace (contains dot ((key ++ str " " ++ print_int l) ++ [newline])) with false.
  2:{ symmetry. apply (contains_false _ _ "."%char); [now left|]. rewrite !in_app_iff. intros [[Hi|[Hi|Hi]]|Hi].
      - rewrite Forall_forall in Hdot. now apply Hdot in Hi.
      - cbn in Hi. decompose [or] Hi; try discriminate; contradiction.
      - assert (H := print_int_digits l). rewrite Forall_forall in H. apply H in Hi. destruct Hi as [Hi|Hi]; [discriminate|]. vm_compute in Hi. lia.
      - cbn in Hi. decompose [or] Hi; try discriminate; contradiction. }
  rewrite parse_print_int. reflexivity.
Qed.

Lemma c46_distance n D d C L sel :
  read_additional_constraints parse_float anum_eqb (write_TSPLIB_file print_val true n D d C L sel) =
  Ok (None, match L with Some l => if l =? 0 then None else Some (AInt l) | None => None end, None).
Proof.
  unfold read_additional_constraints. rewrite write_lines. rewrite readlines_file_app.
  2:{ rewrite !Forall_app. split; [apply header_one_line|]. split; [|apply (trailer_one_line 0%nat (fun x => x))]. apply plain_one_line.
      eapply row_lines_plain. exact NT. }
  change (readlines (str "EOF")) with [str "EOF"].
  set (Lr := match L with Some l => if l =? 0 then None else Some (AInt l) | None => None end).
  assert (Hh : forall t, aloop (None, None, None, false) (map (fun l => l ++ [newline]) (header_lines true n (List.length (selection n sel)) C L) ++ t)
     = aloop (None, Lr, None, false) t).
  { intros t. unfold header_lines. cbn [app map].
    assert (Hrest : forall x, aloop (None, x, None, false)
      (map (fun l => l ++ [newline]) [str "COMMENT: temporary CVRP or TSP problem"; str "DIMENSION: " ++ print_int (Z.of_nat (List.length (selection n sel)));
       str "EDGE_WEIGHT_TYPE: EXPLICIT"; str "EDGE_WEIGHT_FORMAT: UPPER_ROW"; str "EDGE_WEIGHT_SECTION"] ++ t) = aloop (None, x, None, false) t).
    { intros x. apply add_quiets. cbn [map]. repeat (apply Forall_cons; [first [apply str_quiet; reflexivity|apply quiet_key; [reflexivity|apply print_int_plain]]|]). apply Forall_nil. }
    do 2 (cbn [add_loop]; rewrite add_quiet by (apply str_quiet; reflexivity); cbn [bind]).
    cbn [add_loop]; rewrite add_quiet by (apply quiet_key; [reflexivity|apply print_int_plain]). cbn [bind].
    unfold Lr. unfold is_nonzero. destruct L as [l|]; [destruct (l =? 0)|]; cbn [app map add_loop]; try apply Hrest.
    replace (aline (None, None, None, false) ((str "DISTANCE: " ++ print_int l) ++ [newline])) with (Ok (@None Z, Some (@AInt V l), @None (@anum V), false)).
    { cbn [bind]. apply Hrest. }
    symmetry. unfold add_line. cbn [bind].
    replace (contains (str "DISTANCE") ((str "DISTANCE: " ++ print_int l) ++ [newline])) with true by reflexivity.
    change (str "DISTANCE: " ++ print_int l) with (str "DISTANCE:" ++ str " " ++ print_int l) at 1.
    rewrite last_number_int by (try discriminate; repeat constructor; discriminate). cbn [bind].
    assert (Hq : forall w c, In w [str "SERVICE_TIME"; str "VEHICLES"; str "SVC_TIME_SECTION"] -> c = "V"%char -> contains w ((str "DISTANCE: " ++ print_int l) ++ [newline]) = false).
    { intros w c Hw ->. apply (contains_false _ _ "V"%char).
      - cbn [In] in Hw. decompose [or] Hw; subst; try contradiction; vm_compute; tauto.
      - rewrite !in_app_iff. intros [[Hi|Hi]|Hi].
        + cbn in Hi. decompose [or] Hi; try discriminate; contradiction.
        + assert (H := print_int_digits l). rewrite Forall_forall in H. apply H in Hi. destruct Hi as [Hi|Hi]; [discriminate|]. vm_compute in Hi. lia.
        + cbn in Hi. decompose [or] Hi; try discriminate; contradiction. }
    rewrite !(Hq _ "V"%char) by (try reflexivity; cbn [In]; tauto). reflexivity. }
  rewrite map_app, <- !app_assoc, Hh, map_app.
  rewrite <- !app_assoc. rewrite add_quiets.
  2:{ apply Forall_forall. intros l Hl. apply in_map_iff in Hl as (x & <- & Hx). apply plain_quiet.
      assert (H := row_lines_plain print_val parse_float of_int NT D (selection n sel)). rewrite Forall_forall in H. now apply H. }
  rewrite add_quiets.
  2:{ unfold trailer_lines. rewrite !map_app. rewrite !Forall_app. split; [|split].
      - apply Forall_cons; [apply str_quiet; reflexivity|apply Forall_nil].
      - destruct (demand_lines_pairs 0%nat (fun x => x) n d) as (ps & -> & _). apply Forall_forall. intros l Hl. apply in_map_iff in Hl as (x & <- & Hx).
        apply in_map_iff in Hx as (p & <- & _). apply plain_quiet, demand_line_plain.
      - cbn [map]. repeat (apply Forall_cons; [apply str_quiet; reflexivity|]). apply Forall_nil. }
  cbn [add_loop]. rewrite add_quiet by (apply str_quiet; reflexivity). reflexivity.
Qed.

(** ** The section of service times *)
Lemma service_line_plain p : plain (service_line p).
Proof. apply (demand_line_plain p). Qed.


Lemma service_dot z : contains dot (print_int z) = false.
Proof.
  apply (contains_false _ _ "."%char); [now left|]. intros Hi.
  assert (H := print_int_digits z). rewrite Forall_forall in H. apply H in Hi. destruct Hi as [Hi|Hi]; [discriminate|]. vm_compute in Hi. lia.
Qed.
Lemma service_split p : split (service_line p ++ [newline]) = [print_int (fst p); print_int (snd p)].
Proof.
  unfold service_line. rewrite <- !app_assoc. change (str " " ++ print_int (snd p) ++ [newline]) with (" "%char :: (print_int (snd p) ++ [newline])).
  rewrite split_word by (try reflexivity; auto using print_int_nonempty, print_int_nospace).
  rewrite (split_word _ newline []) by (try reflexivity; auto using print_int_nonempty, print_int_nospace). reflexivity.
Qed.

Lemma add_service K L ST p : aline (K, L, ST, true) (service_line p ++ [newline]) =
  match ST with
  | Some st => if anum_eqb (AInt (snd p)) st then Ok (K, L, Some (AInt (snd p)), true) else Raise IOError
  | None => Ok (K, L, Some (AInt (snd p)), true)
  end.
Proof.
  unfold add_line. rewrite service_split, service_dot, parse_print_int. cbn [or_raise bind].
  assert (H := plain_quiet _ (service_line_plain p)). unfold quiet in H. rewrite Forall_forall in H.
  destruct ST as [st|].
  - destruct (anum_eqb _ st); cbn [negb bind]; [|reflexivity]. rewrite !H by (cbn [In]; tauto). reflexivity.
  - cbn [bind]. rewrite !H by (cbn [In]; tauto). reflexivity.
Qed.

Lemma add_services K L s ps t : anum_eqb (AInt s) (AInt s) = true -> Forall (fun p => snd p = s) ps ->
  aloop (K, L, Some (AInt s), true) (map (fun l => l ++ [newline]) (map service_line ps) ++ t) = aloop (K, L, Some (AInt s), true) t.
Proof.
  intros He. induction 1 as [|p ps Hp _ IH]; [reflexivity|]. cbn [map app add_loop]. rewrite add_service. rewrite Hp, He. exact IH.
Qed.

Lemma read_service pre ls : Forall quiet_line pre -> Forall one_line ls ->
  read_additional_constraints parse_float anum_eqb (file_of (pre ++ str "SVC_TIME_SECTION" :: ls)) =
  (do (K, L, ST, _) <- aloop (None, None, None, true) (map (fun l => l ++ [newline]) ls); Ok (K, L, ST)).
Proof.
  intros Hpre Hls. unfold read_additional_constraints. rewrite readlines_file.
  2:{ rewrite Forall_app. split; [eapply Forall_impl; [|exact Hpre]; intros l H; apply H|]. apply Forall_cons; [apply one_line_str; reflexivity|exact Hls]. }
  rewrite map_app, add_quiets; [reflexivity|]. apply Forall_forall. intros l Hl. apply in_map_iff in Hl as (x & <- & Hx).
  rewrite Forall_forall in Hpre. now apply Hpre.
Qed.

Lemma services_one_line ps : Forall one_line (map service_line ps).
Proof. apply plain_one_line, Forall_forall. intros l Hl. apply in_map_iff in Hl as (p & <- & _). apply service_line_plain. Qed.

Lemma c46_service pre ps s : Forall quiet_line pre -> anum_eqb (AInt s) (AInt s) = true -> ps <> [] -> Forall (fun p => snd p = s) ps ->
  read_additional_constraints parse_float anum_eqb (file_of (pre ++ str "SVC_TIME_SECTION" :: map service_line ps)) =
  Ok (None, None, Some (AInt s)).
Proof.
  intros Hpre He Hne Hs. rewrite read_service by (auto using services_one_line).
  destruct Hs as [|p ps Hp Hps]; [easy|]. cbn [map add_loop]. rewrite add_service. rewrite Hp. cbn [bind].
  rewrite <- (app_nil_r (map _ (map service_line ps))), add_services by assumption. reflexivity.
Qed.

Lemma c46_service_depot pre s ps rest : Forall quiet_line pre -> anum_eqb (AInt s) (AInt 0) = false -> Forall one_line rest ->
  read_additional_constraints parse_float anum_eqb
    (file_of (pre ++ str "SVC_TIME_SECTION" :: map service_line ((1, 0) :: (2, s) :: ps) ++ rest)) = Raise IOError.
Proof.
  intros Hpre He Hr. rewrite read_service by (try apply Forall_app; auto using services_one_line).
  cbn [map app add_loop]. rewrite add_service. cbn [bind]. rewrite add_service. cbn [snd]. rewrite He. reflexivity.
Qed.

Lemma c46_service_eof pre ps s rest : Forall quiet_line pre -> anum_eqb (AInt s) (AInt s) = true -> ps <> [] -> Forall (fun p => snd p = s) ps ->
  Forall one_line rest ->
  read_additional_constraints parse_float anum_eqb
    (file_of (pre ++ str "SVC_TIME_SECTION" :: map service_line ps ++ str "EOF" :: rest)) = Raise ValueError.
Proof.
  intros Hpre He Hne Hs Hr. rewrite read_service.
  2:exact Hpre. 2:{ apply Forall_app. split; [apply services_one_line|]. apply Forall_cons; [apply one_line_str; reflexivity|exact Hr]. }
  destruct Hs as [|p ps Hp Hps]; [easy|]. cbn [map app add_loop]. rewrite add_service. rewrite Hp. cbn [bind].
  rewrite map_app, add_services by assumption. reflexivity.
Qed.
End Additional.
