(** * Van Breedam's files, converted and read *)
From Verif Require Import Spec PyBase M_text M_io Spec_io P_text P_io P_io2 P_io3 Spec_coord M_breedam P_coord.
Require Import ZifyBool ZifyNat Lia Permutation.

Lemma split_once_cut a w f v : Forall (fun c => is_space c = true) w -> split_once ":"%char (a ++ w) = Some (f, v) ->
  exists v', split_once ":"%char a = Some (f, v').
Proof.
  intros Hw. revert f v. induction a as [|c a IH]; cbn [app split_once]; intros f v H.
  - exfalso. rewrite split_once_none in H; [discriminate|]. intros Hin. rewrite Forall_forall in Hw. specialize (Hw _ Hin). discriminate.
  - destruct (Ascii.eqb c ":"%char); [injection H as <- <-; eauto|].
    destruct (split_once ":"%char (a ++ w)) as [[x y]|] eqn:E; [|discriminate]. injection H as <- <-.
    destruct (IH _ _ eq_refl) as [v' ->]. eauto.
Qed.

Lemma name_inert bn : one_line bn -> inert_header (str "NAME : " ++ bn).
Proof.
  intros H. split; [apply Forall_app; split; [apply one_line_str; reflexivity|exact H]|].
  destruct (strip_decomp (str "NAME : " ++ bn)) as (w1 & w2 & Hw1 & Hw2 & E).
  destruct w1 as [|c w1].
  2:{ exfalso. cbn in E. injection E as <- _. inversion Hw1; subst. discriminate. }
  cbn [app] in E.
  destruct (split_once_cut (strip (str "NAME : " ++ bn)) w2 (str "NAME ") (str " " ++ bn) Hw2) as [v' Ev].
  { rewrite <- E. reflexivity. }
  exists (str "NAME "), v'. split; [exact Ev|]. split; [discriminate|]. repeat (apply Forall_cons; [reflexivity|]). apply Forall_nil.
Qed.

Lemma capacity_found bn q : capacity_of bn q -> breedam_Q bn = q.
Proof.
  intros H. unfold breedam_Q.
  assert (T : forall a b c, (exists w, In w [a; b; c] /\ contains w bn = true) -> contains a bn || contains b bn || contains c bn = true).
  { intros a b c (w & Hin & Hw). cbn in Hin. destruct Hin as [<-|[<-|[<-|[]]]]; rewrite Hw; rewrite ?orb_true_r; reflexivity. }
  assert (F : forall a b c, contains a bn = false -> contains b bn = false -> contains c bn = false ->
             contains a bn || contains b bn || contains c bn = false) by (intros a b c -> -> ->; reflexivity).
  destruct H as [H|H1 H|H1 H|H1].
  - now rewrite (T _ _ _ H).
  - rewrite F by (apply H1; cbn; tauto). now rewrite (T _ _ _ H).
  - rewrite F by (apply H1; cbn; tauto). rewrite F by (apply H1; cbn; tauto). now rewrite (T _ _ _ H).
  - rewrite !F by (apply H1; cbn; tauto). reflexivity.
Qed.

Definition xy_line (p : Z * Z * Z) : text :=
  print_int (fst (fst p)) ++ str " " ++ print_int (snd (fst p)) ++ str " " ++ print_int (snd p).

Lemma written bn ls xys qs :
  breedam_rows (readlines ls) [] [] = Ok (xys, qs) ->
  breedam_to_tsplib95 bn ls =
  Ok (coord_file [str "NAME : " ++ bn; str "COMMENT : Automatically converted from a van Breedam DAT file."]
        (List.length xys) (str "EUC_2D") (breedam_Q bn) (map xy_line xys) (map demand_line qs)).
Proof.
  intros E. unfold breedam_to_tsplib95. rewrite E. cbn [bind]. f_equal. unfold coord_file, file_of.
  assert (E1 : flat_map (fun '(i, x, y) => print_int i ++ str " " ++ print_int x ++ str " " ++ print_int y ++ [newline]) xys
               = flat_map (fun l => l ++ [newline]) (map xy_line xys)).
  { clear. induction xys as [|[[i x] y] t IH]; [reflexivity|]. cbn [map flat_map]. rewrite IH. unfold xy_line. cbn [fst snd].
    rewrite <- !app_assoc. reflexivity. }
  assert (E2 : flat_map (fun '(i, q) => print_int i ++ str " " ++ print_int q ++ [newline]) qs
               = flat_map (fun l => l ++ [newline]) (map demand_line qs)).
  { clear. induction qs as [|[i q] t IH]; [reflexivity|]. cbn [map flat_map]. rewrite IH. unfold demand_line. cbn [fst snd].
    rewrite <- !app_assoc. reflexivity. }
  rewrite E1, E2. rewrite !flat_map_app. cbn [flat_map]. rewrite !flat_map_app. cbn [flat_map].
  rewrite <- !app_assoc. rewrite ?app_nil_l. reflexivity.
Qed.

Section Van.
Context {V : Type}.
Variable parse_float : text -> option V.
Variable of_int : Z -> V.
Hypothesis Hint : forall z, parse_float (print_int z) = Some (of_int z).

Lemma xy_line_point p : point_line parse_float (xy_line p) (fst (fst p), (of_int (snd (fst p)), of_int (snd p))).
Proof.
  split.
  - unfold xy_line, plain. rewrite !Forall_app. repeat split; try apply print_int_plain;
      (constructor; [|constructor]; repeat split; try discriminate; left; vm_compute; repeat constructor).
  - exists (print_int (fst (fst p))), (print_int (snd (fst p))), (print_int (snd p)), []. split.
    + unfold xy_line. change (str " " ++ print_int (snd p)) with (" "%char :: print_int (snd p)).
      change (str " " ++ print_int (snd (fst p)) ++ " "%char :: print_int (snd p)) with (" "%char :: print_int (snd (fst p)) ++ " "%char :: print_int (snd p)).
      rewrite split_word; [|apply print_int_nonempty|apply print_int_nospace|reflexivity].
      rewrite split_word; [|apply print_int_nonempty|apply print_int_nospace|reflexivity].
      rewrite split_last_word; [reflexivity|apply print_int_nonempty|apply print_int_nospace].
    + cbn [fst snd]. rewrite !Hint. auto using parse_print_int.
Qed.

Lemma demand_line_load p : load_line parse_float (demand_line p) (fst p, of_int (snd p)).
Proof.
  split; [apply demand_line_plain|]. eexists _, _, []. split; [apply demand_line_words|].
  cbn [fst snd]. rewrite !Hint. auto using parse_print_int.
Qed.

Lemma Forall2_map_both {A B C} (R : B -> C -> Prop) (f : A -> B) (g : A -> C) l : (forall x, R (f x) (g x)) -> Forall2 R (map f l) (map g l).
Proof. intros H. induction l; cbn; constructor; auto. Qed.

Lemma c124_van (vzero : V) (geo : V -> V) calcD bn ls rows q D :
  one_line bn -> Forall one_line ls -> Forall2 line_ints ls rows -> capacity_of bn q ->
  calcD (Some (str "EUC_2D")) (map (fun s => Some (of_int (fst (fst s)), of_int (snd (fst s)))) (stops_of rows)) = Some D ->
  exists t, breedam_to_tsplib95 bn (file_of ls) = Ok t /\
  read_TSPLIB_CVRP parse_float vzero geo calcD t =
  Ok (mkproblem (Z.of_nat (List.length (stops_of rows)) - 1)
        (Some (map (fun s => Some (of_int (fst (fst s)), of_int (snd (fst s)))) (stops_of rows))) None
        (Some (map (fun s => Some (of_int (snd s))) (stops_of rows))) (Some D) (Some q) (Some (str "EUC_2D"))).
Proof.
  intros Hbn Hls HF Hq HD.
  destruct (rows_read ls rows [] [] HF) as (xys & qs & E & E1 & _ & _ & E4). cbn [app] in E.
  rewrite <- (readlines_file ls Hls) in E. eexists. split; [exact (written bn _ _ _ E)|].
  rewrite (capacity_found _ _ Hq).
  assert (L1 : List.length xys = List.length (stops_of rows)) by (apply (f_equal (@List.length _)) in E1; now rewrite !map_length in E1).
  assert (L2 : List.length qs = List.length (stops_of rows)) by (apply (f_equal (@List.length _)) in E4; now rewrite !map_length in E4).
  assert (P1 : map (fun e => Some (snd e)) (map (fun p => (fst (fst p), (of_int (snd (fst p)), of_int (snd p)))) xys)
               = map (fun s => Some (of_int (fst (fst s)), of_int (snd (fst s)))) (stops_of rows)).
  { rewrite map_map. cbn [snd]. transitivity (map (fun p => Some (of_int (fst p), of_int (snd p))) (map (fun p : Z * Z * Z => (snd (fst p), snd p)) xys)).
    - now rewrite map_map.
    - rewrite E1, map_map. reflexivity. }
  assert (P2 : map (fun e => Some (snd e)) (map (fun p => (fst p, of_int (snd p))) qs) = map (fun s => Some (of_int (snd s))) (stops_of rows)).
  { rewrite map_map. cbn [snd]. transitivity (map (fun z => Some (of_int z)) (map snd qs)).
    - now rewrite map_map.
    - rewrite E4, map_map. reflexivity. }
  rewrite (c125_by_position parse_float vzero geo calcD _ _ _ _ _ (map (fun p => (fst (fst p), (of_int (snd (fst p)), of_int (snd p)))) xys)
             _ (map (fun p => (fst p, of_int (snd p))) qs) D).
  - rewrite P1, P2, L1. reflexivity.
  - apply Forall_cons; [now apply name_inert|]. apply Forall_cons; [|apply Forall_nil].
    split; [apply one_line_str; reflexivity|]. exists (str "COMMENT "), (str " Automatically converted from a van Breedam DAT file.").
    split; [reflexivity|]. split; [discriminate|]. repeat (apply Forall_cons; [reflexivity|]). apply Forall_nil.
  - left. reflexivity.
  - apply Forall2_map_both, xy_line_point.
  - now rewrite map_length.
  - apply Forall2_map_both, demand_line_load.
  - rewrite map_length. congruence.
  - now rewrite P1.
Qed.

(** A word that is no integer on any line. *)
Lemma rows_bad ls xys qs : (exists l, In l ls /\ exists w, In w (split (filter printable l)) /\ parse_int w = None) ->
  breedam_rows (map (fun l => l ++ [newline]) ls) xys qs = Raise ValueError.
Proof.
  revert xys qs. induction ls as [|l ls IH]; intros xys qs (l' & Hin & w & Hw & Hp); [easy|].
  cbn [map breedam_rows]. rewrite filter_app. change (filter in_printable [newline]) with [newline]. rewrite split_newline, filter_same.
  assert (K : forall ws, (exists zs, ints ws = Ok zs) \/ ints ws = Raise ValueError).
  { clear. induction ws as [|w ws IH]; cbn; [eauto|]. destruct (parse_int w); cbn; [|auto]. destruct IH as [[zs ->]| ->]; cbn; eauto. }
  assert (B : forall ws, In w ws -> ints ws = Raise ValueError).
  { clear -Hp K. induction ws as [|x ws IH]; cbn; [easy|]. intros [-> |H].
    - now rewrite Hp.
    - rewrite (IH H). destruct (parse_int x); reflexivity. }
  destruct (K (split (filter printable l))) as [[zs E]|E]; rewrite E; [|reflexivity]. cbn [bind].
  destruct Hin as [-> |Hin].
  - rewrite (B _ Hw) in E. discriminate.
  - assert (R : forall a b, breedam_rows (map (fun l => l ++ [newline]) ls) a b = Raise ValueError) by (intros; apply IH; eauto 6).
    do 10 (destruct zs as [|? zs]; [apply R|]). destruct zs; apply R.
Qed.

Lemma c124_bad bn ls : Forall one_line ls ->
  (exists l, In l ls /\ exists w, In w (split (filter printable l)) /\ parse_int w = None) ->
  breedam_to_tsplib95 bn (file_of ls) = Raise ValueError.
Proof. intros Hls H. unfold breedam_to_tsplib95. rewrite readlines_file by exact Hls. now rewrite (rows_bad ls [] [] H). Qed.
End Van.
