(** * Proofs about relocate, exchange and the TSP solver *)
From Verif Require Import Spec Spec_ls PyBase M_util M_intra P_base P_cvrp P_scan P_intra.
From Coq Require Import ZifyBool ZifyNat.

(** ** Relocate *)
Definition delta_reloc (route : list nat) (D : matrix) (i j : nat) : Z :=
  - D (at_ route (i - 1)) (at_ route i) - D (at_ route i) (at_ route (i + 1))
  + D (at_ route (i - 1)) (at_ route (i + 1)) - D (at_ route (j - 1)) (at_ route j)
  + D (at_ route (j - 1)) (at_ route i) + D (at_ route i) (at_ route j).

Definition skip_reloc (route : list nat) (i j : nat) : bool :=
  (Nat.eqb i j || Nat.eqb j (i - 1)) ||
  (Nat.eqb (at_ route (j - 1)) (at_ route i) || Nat.eqb (at_ route j) (at_ route i)).

Definition cands_reloc (route : list nat) (D : matrix) : list (Z * (nat * nat)) :=
  flat_map (fun i => flat_map (fun j =>
      if skip_reloc route i j then [] else [(delta_reloc route D i j, (i, j))])
    (range 1 (length route))) (range 1 (length route - 1)).

Definition build_reloc (route : list nat) (m : nat * nat) : list nat :=
  let (i, j) := m in
  if Nat.ltb i j
  then slice_to i route ++ slice (i + 1) j route ++ [at_ route i] ++ slice_from j route
  else slice_to j route ++ [at_ route i] ++ slice j i route ++ slice_from (i + 1) route.

Lemma do_reloc_scan eps route D first bd0 :
  do_relocate_move eps route D first bd0 =
  match fst (scan eps first (cands_reloc route D) (None, start_delta bd0)) with
  | (Some m, bd) => Some (build_reloc route m, bd)
  | (None, _) => None
  end.
Proof.
  unfold do_relocate_move, cands_reloc. rewrite <- scan_flat.
  erewrite for_break_ext.
  2: { intros i s _. erewrite for_break_ext.
       { rewrite (scan_flat eps first (range 1 (length route))
           (fun j => if skip_reloc route i j then [] else [(delta_reloc route D i j, (i, j))])). reflexivity. }
       intros j s' _. cbv beta zeta. unfold skip_reloc.
       destruct (Nat.eqb i j || Nat.eqb j (i - 1)); cbn [orb]; [now rewrite scan_nil|].
       destruct (Nat.eqb (at_ route (j - 1)) (at_ route i) || Nat.eqb (at_ route j) (at_ route i));
         [now rewrite scan_nil|]. symmetry. apply scan_one. }
  match goal with |- context [for_break ?l ?b ?s] => destruct (for_break l b s) as [[[[i j]|] bd] brk] end; [|reflexivity].
  unfold build_reloc. cbn [fst]. destruct (Nat.ltb i j); reflexivity.
Qed.

Lemma in_cands_reloc route D dl m : In (dl, m) (cands_reloc route D) <->
  exists i j, (1 <= i /\ i + 1 < length route /\ 1 <= j /\ j < length route)%nat /\ skip_reloc route i j = false /\
    m = (i, j) /\ dl = delta_reloc route D i j.
Proof.
  unfold cands_reloc. rewrite in_flat_map. split.
  - intros (i & Hi & H). rewrite in_flat_map in H. destruct H as (j & Hj & H).
    rewrite in_range in Hi, Hj. destruct (skip_reloc route i j) eqn:E; [easy|]. destruct H as [H|[]].
    injection H as <- <-. exists i, j. repeat split; lia || assumption.
  - intros (i & j & Hb & E & -> & ->). exists i. rewrite in_range. split; [lia|].
    rewrite in_flat_map. exists j. rewrite in_range. split; [lia|]. rewrite E. now left.
Qed.

(** Moving [b] forward over [l2], and backward. *)
Lemma pieces_fwd D l1 b l2 l3 i j : l1 <> [] -> l2 <> [] -> l3 <> [] ->
  i = length l1 -> j = (length l1 + 1 + length l2)%nat ->
  let route := l1 ++ [b] ++ l2 ++ l3 in
  build_reloc route (i, j) = l1 ++ l2 ++ [b] ++ l3 /\
  delta_reloc route D i j = path_cost D (l1 ++ l2 ++ [b] ++ l3) - path_cost D route /\
  at_ route i = b /\ at_ route (j - 1) = last l2 0%nat /\ at_ route j = hd 0%nat l3.
Proof.
  intros H1 H2 H3 Hi Hj route. pose proof (ne_len _ H1). pose proof (ne_len _ H2).
  assert (Eb : at_ route i = b) by (unfold route; rewrite at_hd by lia; reflexivity).
  assert (Ea : at_ route (i - 1) = last l1 0%nat) by (unfold route; rewrite at_last by (assumption || lia); reflexivity).
  assert (Ec : at_ route (i + 1) = hd 0%nat l2).
  { unfold route. rewrite (app_assoc l1). rewrite at_hd by (rewrite app_length; cbn; lia). now apply hd_app_ne. }
  assert (Ed : at_ route (j - 1) = last l2 0%nat).
  { unfold route. rewrite (app_assoc [b]), (app_assoc l1). rewrite at_last; [|ne|rewrite !app_length; cbn [length]; lia].
    now rewrite !last_app_ne by ne. }
  assert (Ee : at_ route j = hd 0%nat l3).
  { unfold route. rewrite (app_assoc [b]), (app_assoc l1). apply at_hd. rewrite !app_length; cbn [length]; lia. }
  repeat split; [| |assumption..].
  - unfold build_reloc. replace (i <? j)%nat with true by lia. rewrite Eb.
    unfold route. rewrite slice_to_app by lia. f_equal. rewrite (app_assoc l1).
    rewrite slice_app by (rewrite ?app_length; cbn [length]; lia). f_equal. f_equal.
    rewrite app_assoc. apply slice_from_app. rewrite !app_length; cbn [length]; lia.
  - unfold delta_reloc. rewrite Ea, Eb, Ec, Ed, Ee. unfold route. pc. rewrite path_cost_one. cbn [hd]. lia.
Qed.

Lemma pieces_bwd D l1 b l2 l3 i j : l1 <> [] -> l2 <> [] -> l3 <> [] ->
  i = (length l1 + length l2)%nat -> j = length l1 ->
  let route := l1 ++ l2 ++ [b] ++ l3 in
  build_reloc route (i, j) = l1 ++ [b] ++ l2 ++ l3 /\
  delta_reloc route D i j = path_cost D (l1 ++ [b] ++ l2 ++ l3) - path_cost D route /\
  at_ route i = b /\ at_ route (j - 1) = last l1 0%nat /\ at_ route j = hd 0%nat l2.
Proof.
  intros H1 H2 H3 Hi Hj route. pose proof (ne_len _ H1). pose proof (ne_len _ H2).
  assert (Eb : at_ route i = b).
  { unfold route. rewrite app_assoc. rewrite at_hd by (rewrite app_length; lia). reflexivity. }
  assert (Ea : at_ route (i - 1) = last l2 0%nat).
  { unfold route. rewrite app_assoc. rewrite at_last; [|ne|rewrite app_length; lia]. now apply last_app_ne. }
  assert (Ec : at_ route (i + 1) = hd 0%nat l3).
  { unfold route. rewrite (app_assoc l2), (app_assoc l1). apply at_hd. rewrite !app_length; cbn [length]; lia. }
  assert (Ed : at_ route (j - 1) = last l1 0%nat) by (unfold route; apply at_last; [assumption|lia]).
  assert (Ee : at_ route j = hd 0%nat l2).
  { unfold route. rewrite at_hd by lia. now apply hd_app_ne. }
  repeat split; [| |assumption..].
  - unfold build_reloc. replace (i <? j)%nat with false by lia. rewrite Eb.
    unfold route. rewrite slice_to_app by lia. f_equal. f_equal.
    rewrite slice_app by lia. f_equal. rewrite (app_assoc l2), (app_assoc l1).
    apply slice_from_app. rewrite !app_length; cbn [length]; lia.
  - unfold delta_reloc. rewrite Ea, Eb, Ec, Ed, Ee. unfold route. pc. rewrite path_cost_one. cbn [hd]. lia.
Qed.

Lemma reloc_cand_sound route D dl m : In (dl, m) (cands_reloc route D) ->
  relocate_nbr route (build_reloc route m) /\ dl = path_cost D (build_reloc route m) - path_cost D route.
Proof.
  intros Hin. apply in_cands_reloc in Hin. destruct Hin as (i & j & Hb & Hk & -> & ->).
  unfold skip_reloc in Hk. apply orb_false_iff in Hk. destruct Hk as [K1 K2].
  apply orb_false_iff in K1, K2. destruct K1 as [K1 K1'], K2 as [K2 K2'].
  rewrite Nat.eqb_neq in *.
  destruct (Nat.lt_ge_cases i j) as [Hlt|Hge].
  - assert (Hj : (i + 2 <= j)%nat).
    { destruct (Nat.eq_dec j (i + 1)) as [->|]; [|lia]. exfalso. apply K2. f_equal. lia. }
    destruct (split_at route i) as (l1 & q & -> & Hl1); [lia|]. rewrite app_length in Hb.
    destruct q as [|b q]; [cbn in Hb; lia|]. cbn [length] in Hb.
    destruct (split_at q (j - i - 1)) as (l2 & l3 & -> & Hl2); [lia|]. rewrite app_length in Hb.
    assert (N1 : l1 <> []) by (apply len_ne; lia). assert (N2 : l2 <> []) by (apply len_ne; lia).
    assert (N3 : l3 <> []) by (apply len_ne; lia).
    destruct (pieces_fwd D l1 b l2 l3 i j N1 N2 N3) as (E1 & E2 & _); [lia|lia|].
    cbn [app] in *. rewrite E1, E2. split; [|reflexivity].
    exists l1, l2, l3, b. repeat split; try assumption. left. now split.
  - assert (Hj : (j + 2 <= i)%nat) by lia.
    destruct (split_at route j) as (l1 & q & -> & Hl1); [lia|]. rewrite app_length in Hb.
    destruct (split_at q (i - j)) as (l2 & q2 & -> & Hl2); [lia|]. rewrite app_length in Hb.
    destruct q2 as [|b l3]; [cbn in Hb; lia|]. cbn [length] in Hb.
    assert (N1 : l1 <> []) by (apply len_ne; lia). assert (N2 : l2 <> []) by (apply len_ne; lia).
    assert (N3 : l3 <> []) by (apply len_ne; lia).
    destruct (pieces_bwd D l1 b l2 l3 i j N1 N2 N3) as (E1 & E2 & _); [lia|lia|].
    cbn [app] in *. rewrite E1, E2. split; [|reflexivity].
    exists l1, l2, l3, b. repeat split; try assumption. right. now split.
Qed.

Lemma NoDup_app_in {A} (l1 l2 : list A) x : NoDup (l1 ++ l2) -> In x l1 -> In x l2 -> False.
Proof.
  induction l1 as [|a l1 IH]; cbn; [easy|]. intros Hn [->|H1] H2; inversion Hn as [|? ? Hni Hn']; subst.
  - apply Hni, in_or_app. now right.
  - now apply IH.
Qed.
Lemma in_last {A} (l : list A) x : l <> [] -> In (last l x) l.
Proof. intros H. destruct (exists_last H) as (p & z & ->). rewrite last_last. apply in_or_app. right; now left. Qed.
Lemma in_hd {A} (l : list A) x : l <> [] -> In (hd x l) l.
Proof. destruct l; [easy|]. now left. Qed.
Lemma tl_app_ne {A} (l1 l2 : list A) : l1 <> [] -> tl (l1 ++ l2) = tl l1 ++ l2.
Proof. now destruct l1. Qed.
Lemma removelast_app_ne {A} (l1 l2 : list A) : l2 <> [] -> removelast (l1 ++ l2) = l1 ++ removelast l2.
Proof. apply removelast_app. Qed.
Lemma NoDup_app_r {A} (l1 l2 : list A) : NoDup (l1 ++ l2) -> NoDup l2.
Proof. induction l1; cbn; [easy|]. inversion 1; auto. Qed.

Lemma reloc_cand_complete route D r : simple_tour route -> relocate_nbr route r ->
  exists dl m, In (dl, m) (cands_reloc route D) /\ dl = path_cost D r - path_cost D route.
Proof.
  intros [Hn1 Hn2] (l1 & l2 & l3 & b & N1 & N2 & N3 & H).
  pose proof (ne_len _ N1). pose proof (ne_len _ N2). pose proof (ne_len _ N3).
  assert (FWD : forall m1 c m2 m3, m1 <> [] -> m2 <> [] -> m3 <> [] ->
     route = m1 ++ [c] ++ m2 ++ m3 ->
     exists dl m, In (dl, m) (cands_reloc route D) /\ dl = path_cost D (m1 ++ m2 ++ [c] ++ m3) - path_cost D route).
  { intros m1 c m2 m3 M1 M2 M3 E. subst route.
    pose proof (ne_len _ M1). pose proof (ne_len _ M2). pose proof (ne_len _ M3).
    set (i := length m1). set (j := (length m1 + 1 + length m2)%nat).
    destruct (pieces_fwd D m1 c m2 m3 i j M1 M2 M3) as (E1 & E2 & E3 & E4 & E5); [reflexivity|reflexivity|].
    eexists. exists (i, j). split; [|exact E2]. apply in_cands_reloc. exists i, j. repeat split.
    1-4: rewrite ?app_length; cbn [length]; unfold i, j; rewrite ?app_length; lia.
    unfold skip_reloc. rewrite E3, E4, E5. rewrite tl_app_ne in Hn1 by assumption.
    assert (C : forall x, In x (m2 ++ m3) -> x <> c).
    { intros x Hx ->. apply NoDup_app_r in Hn1. inversion Hn1 as [|? ? Hni Hn']; subst. auto. }
    apply orb_false_iff; split; apply orb_false_iff; split; apply Nat.eqb_neq.
    - unfold i, j; lia.
    - unfold i, j; lia.
    - apply C, in_or_app. left. now apply in_last.
    - apply C, in_or_app. right. now apply in_hd. }
  destruct H as [[E ->]|[E ->]]; [now apply (FWD l1 b l2 l3)|].
  destruct l2 as [|x [|y t]]; [easy| |].
  - destruct (FWD l1 x [b] l3) as (dl & m & H); [assumption|discriminate|assumption|exact E|].
    exists dl, m. exact H.
  - subst route. set (l2 := x :: y :: t) in *.
    set (i := (length l1 + length l2)%nat). set (j := length l1).
    destruct (pieces_bwd D l1 b l2 l3 i j N1 N2 N3) as (E1 & E2 & E3 & E4 & E5); [reflexivity|reflexivity|].
    eexists. exists (i, j). split; [|exact E2]. apply in_cands_reloc. exists i, j. repeat split.
    1-4: rewrite ?app_length; cbn [length]; unfold i, j; rewrite ?app_length; lia.
    unfold skip_reloc. rewrite E3, E4, E5.
    assert (Hn : NoDup ((l1 ++ l2) ++ [b] ++ removelast l3)).
    { rewrite <- app_assoc. rewrite <- !removelast_app_ne by ne. exact Hn2. }
    assert (C : forall z, In z (l1 ++ l2) -> z <> b).
    { intros z Hz ->. apply (NoDup_app_in _ _ b Hn Hz). now left. }
    assert (L2 : (2 <= length l2)%nat) by (unfold l2; cbn; lia).
    apply orb_false_iff; split; apply orb_false_iff; split; apply Nat.eqb_neq.
    + unfold i, j; lia.
    + unfold i, j; lia.
    + apply C, in_or_app. left. now apply in_last.
    + apply C, in_or_app. right. now left.
Qed.

Lemma do_relocate_sound eps route D first bd0 r' delta : 0 <= eps ->
  do_relocate_move eps route D first bd0 = Some (r', delta) ->
  relocate_nbr route r' /\ delta = path_cost D r' - path_cost D route /\ delta + eps < start_delta bd0.
Proof.
  intros Heps E. rewrite do_reloc_scan in E.
  destruct (fst (scan eps first (cands_reloc route D) (None, start_delta bd0))) as [[m|] bd] eqn:F; [|easy].
  injection E as <- <-. apply scan_sound in F; [|exact Heps]. destruct F as [F1 F2].
  apply reloc_cand_sound in F1. tauto.
Qed.

Lemma do_relocate_contract eps route D first bd0 : 0 <= eps -> simple_tour route ->
  finds_improvement (path_cost D) (relocate_nbr route) (path_cost D route) (start_delta bd0) eps (negb first)
    (do_relocate_move eps route D first bd0).
Proof.
  intros Heps Hs. rewrite do_reloc_scan. apply scan_contract; [exact Heps|apply reloc_cand_sound|].
  intros r. now apply reloc_cand_complete.
Qed.

Lemma relocate_same route r' : relocate_nbr route r' -> same_tour_nodes route r'.
Proof.
  intros (l1 & l2 & l3 & b & N1 & N2 & N3 & [[-> ->]|[-> ->]]); (split; [|split]).
  - apply Permutation_app_head. rewrite !app_assoc. apply Permutation_app_tail, Permutation_app_comm.
  - now rewrite !hd_app_ne.
  - now rewrite !last_app_ne by ne.
  - apply Permutation_app_head. rewrite !app_assoc. apply Permutation_app_tail, Permutation_app_comm.
  - now rewrite !hd_app_ne.
  - now rewrite !last_app_ne by ne.
Qed.

(** ** Exchange *)
Definition delta_exch (route : list nat) (D : matrix) (i j : nat) : Z :=
  let a := at_ route (i - 1) in
  let b := at_ route i in
  let c := at_ route (i + 1) in
  let d := at_ route (j - 1) in
  let e := at_ route j in
  let f := at_ route (j + 1) in
  if Nat.eqb c e
  then - D a b - D b e - D e f + D a e + D e b + D b f
  else - D a b - D b c + D a e + D e c - D d e - D e f + D d b + D b f.

Definition cands_exch (route : list nat) (D : matrix) : list (Z * (nat * nat)) :=
  flat_map (fun i => flat_map (fun j =>
      if Nat.eqb i j then [] else [(delta_exch route D i j, (i, j))])
    (range (i + 1) (length route - 1))) (range 1 (length route - 1)).

Definition build_exch (route : list nat) (m : nat * nat) : list nat :=
  let (i, j) := m in
  slice_to i route ++ [at_ route j] ++ slice (i + 1) j route ++ [at_ route i] ++ slice_from (j + 1) route.

Lemma do_exch_scan eps route D first bd0 :
  do_exchange_move eps route D first bd0 =
  match fst (scan eps first (cands_exch route D) (None, start_delta bd0)) with
  | (Some m, bd) => Some (build_exch route m, bd)
  | (None, _) => None
  end.
Proof.
  unfold do_exchange_move, cands_exch. rewrite <- scan_flat.
  erewrite for_break_ext.
  2: { intros i s _. erewrite for_break_ext.
       { rewrite (scan_flat eps first (range (i + 1) (length route - 1))
           (fun j => if Nat.eqb i j then [] else [(delta_exch route D i j, (i, j))])). reflexivity. }
       intros j s' _. cbv beta zeta.
       destruct (Nat.eqb i j); [now rewrite scan_nil|]. symmetry. apply scan_one. }
  match goal with |- context [for_break ?l ?b ?s] => destruct (for_break l b s) as [[[[i j]|] bd] brk] end; reflexivity.
Qed.

Lemma in_cands_exch route D dl m : In (dl, m) (cands_exch route D) <->
  exists i j, (1 <= i /\ i < j /\ j + 1 < length route)%nat /\ m = (i, j) /\ dl = delta_exch route D i j.
Proof.
  unfold cands_exch. rewrite in_flat_map. split.
  - intros (i & Hi & H). rewrite in_flat_map in H. destruct H as (j & Hj & H).
    rewrite in_range in Hi, Hj. destruct (Nat.eqb i j) eqn:E; [easy|]. destruct H as [H|[]].
    injection H as <- <-. exists i, j. repeat split; lia.
  - intros (i & j & Hb & -> & ->). exists i. rewrite in_range. split; [lia|].
    rewrite in_flat_map. exists j. rewrite in_range. split; [lia|].
    replace (i =? j)%nat with false by lia. now left.
Qed.

Lemma pieces_exch D l1 b l2 e l3 i j : l1 <> [] -> l3 <> [] -> (l2 <> [] -> hd 0%nat l2 <> e) ->
  i = length l1 -> j = (length l1 + 1 + length l2)%nat ->
  let route := l1 ++ [b] ++ l2 ++ [e] ++ l3 in
  build_exch route (i, j) = l1 ++ [e] ++ l2 ++ [b] ++ l3 /\
  delta_exch route D i j = path_cost D (l1 ++ [e] ++ l2 ++ [b] ++ l3) - path_cost D route.
Proof.
  intros H1 H3 Hne Hi Hj route. pose proof (ne_len _ H1).
  assert (Eb : at_ route i = b) by (unfold route; rewrite at_hd by lia; reflexivity).
  assert (Ea : at_ route (i - 1) = last l1 0%nat) by (unfold route; rewrite at_last by (assumption || lia); reflexivity).
  assert (Ec : at_ route (i + 1) = hd 0%nat (l2 ++ [e] ++ l3)).
  { unfold route. rewrite (app_assoc l1). apply at_hd. rewrite app_length; cbn [length]; lia. }
  assert (Ed : at_ route (j - 1) = last ([b] ++ l2) 0%nat).
  { unfold route. rewrite (app_assoc [b]), (app_assoc l1). rewrite at_last; [|ne|rewrite !app_length; cbn [length]; lia].
    now rewrite !last_app_ne by ne. }
  assert (Ee : at_ route j = e).
  { unfold route. rewrite (app_assoc [b]), (app_assoc l1). rewrite at_hd by (rewrite !app_length; cbn [length]; lia). reflexivity. }
  assert (Ef : at_ route (j + 1) = hd 0%nat l3).
  { unfold route. rewrite (app_assoc l2), (app_assoc [b]), (app_assoc l1). apply at_hd.
    rewrite !app_length; cbn [length]; lia. }
  split.
  - unfold build_exch. rewrite Eb, Ee. unfold route. rewrite slice_to_app by lia. f_equal. f_equal.
    rewrite (app_assoc l1). rewrite slice_app by (rewrite ?app_length; cbn [length]; lia). f_equal. f_equal.
    rewrite (app_assoc l2), (app_assoc _ _ l3). apply slice_from_app. rewrite !app_length; cbn [length]; lia.
  - unfold delta_exch. cbv zeta. rewrite Ea, Eb, Ec, Ed, Ee, Ef. unfold route. destruct l2 as [|c l2].
    + cbn [app hd last]. rewrite Nat.eqb_refl.
      replace (e :: b :: l3) with ([e] ++ [b] ++ l3) by reflexivity.
      replace (b :: e :: l3) with ([b] ++ [e] ++ l3) by reflexivity.
      pc. cbn [hd last]. rewrite !path_cost_one. lia.
    + set (q := c :: l2) in *. assert (Hq : q <> []) by discriminate. specialize (Hne Hq).
      rewrite hd_app_ne by assumption. apply Nat.eqb_neq in Hne. rewrite Hne.
      pc. rewrite last_app_ne by assumption. rewrite !path_cost_one. cbn [hd]. lia.
Qed.

Lemma exch_split (route : list nat) (i j : nat) : (1 <= i /\ i < j /\ j + 1 < length route)%nat ->
  exists (l1 : list nat) (b : nat) (l2 : list nat) (e : nat) (l3 : list nat), l1 <> [] /\ l3 <> [] /\ route = l1 ++ [b] ++ l2 ++ [e] ++ l3 /\
    i = length l1 /\ j = (length l1 + 1 + length l2)%nat.
Proof.
  intros Hb. destruct (split_at route i) as (l1 & q & -> & Hl1); [lia|]. rewrite app_length in Hb.
  destruct q as [|b q]; [cbn in Hb; lia|]. cbn [length] in Hb.
  destruct (split_at q (j - i - 1)) as (l2 & q2 & -> & Hl2); [lia|]. rewrite app_length in Hb.
  destruct q2 as [|e l3]; [cbn in Hb; lia|]. cbn [length] in Hb.
  exists l1, b, l2, e, l3. split; [apply len_ne; lia|]. split; [apply len_ne; lia|].
  split; [reflexivity|]. lia.
Qed.

Lemma simple_exch l1 b l2 e l3 : simple_tour (l1 ++ [b] ++ l2 ++ [e] ++ l3) -> l1 <> [] ->
  l2 <> [] -> hd 0%nat l2 <> e.
Proof.
  intros [Hn _] H1 H2 E. rewrite tl_app_ne in Hn by assumption. do 2 apply NoDup_app_r in Hn.
  apply (NoDup_app_in _ _ e Hn); [|now left]. rewrite <- E. now apply in_hd.
Qed.

Lemma do_exchange_contract eps route D first bd0 : 0 <= eps -> simple_tour route ->
  finds_improvement (path_cost D) (exchange_nbr route) (path_cost D route) (start_delta bd0) eps (negb first)
    (do_exchange_move eps route D first bd0).
Proof.
  intros Heps Hs. rewrite do_exch_scan. apply scan_contract; [exact Heps| |].
  - intros dl m Hin. apply in_cands_exch in Hin. destruct Hin as (i & j & Hb & -> & ->).
    destruct (exch_split route i j Hb) as (l1 & b & l2 & e & l3 & N1 & N3 & -> & Hi & Hj).
    destruct (pieces_exch D l1 b l2 e l3 i j) as [E1 E2]; try assumption; [now apply simple_exch with (1 := Hs)|].
    rewrite E1, E2. split; [|reflexivity]. exists l1, l2, l3, b, e. now repeat split.
  - intros r (l1 & l2 & l3 & b & e & N1 & N3 & -> & ->).
    set (i := length l1). set (j := (length l1 + 1 + length l2)%nat).
    destruct (pieces_exch D l1 b l2 e l3 i j) as [E1 E2]; try assumption; try reflexivity;
      [now apply simple_exch with (1 := Hs)|].
    eexists. exists (i, j). split; [|exact E2]. apply in_cands_exch. exists i, j.
    split; [|now split]. pose proof (ne_len _ N1). pose proof (ne_len _ N3).
    rewrite !app_length. cbn [length]. unfold i, j. lia.
Qed.

Lemma exchange_same route r' : exchange_nbr route r' -> same_tour_nodes route r'.
Proof.
  intros (l1 & l2 & l3 & b & e & N1 & N3 & -> & ->). split; [|split].
  - apply Permutation_app_head. cbn [app].
    transitivity (b :: e :: l2 ++ l3); [apply perm_skip; symmetry; apply Permutation_middle|].
    transitivity (e :: b :: l2 ++ l3); [apply perm_swap|]. apply perm_skip, Permutation_middle.
  - now rewrite !hd_app_ne.
  - rewrite !last_app_ne by ne. reflexivity.
Qed.

(** ** The TSP solver *)
Lemma path_cost_lower (D : matrix) (l : list nat) (m : Z) :
  (forall a b, In a l -> In b l -> - m <= D a b) -> 0 <= m ->
  - (m * Z.of_nat (length l)) <= path_cost D l.
Proof.
  intros H Hm. induction l as [|a l IH]; [cbn; lia|]. destruct l as [|b l]; [cbn; nia|].
  rewrite path_cost_cons2. assert (- m <= D a b) by (apply H; cbn; auto).
  assert (IH' : - (m * Z.of_nat (length (b :: l))) <= path_cost D (b :: l)).
  { apply IH. intros x y Hx Hy. apply H; now right. }
  change (length (a :: b :: l)) with (S (length (b :: l))). nia.
Qed.

Lemma matrix_bounded D (l : list nat) : exists m, 0 <= m /\ forall a b, In a l -> In b l -> - m <= D a b.
Proof.
  assert (R : forall a (k : list nat), exists m, 0 <= m /\ forall b, In b k -> - m <= D a b).
  { intros a k. induction k as [|x k (m & Hm & H)]; [exists 0; split; [lia|easy]|].
    exists (m + Z.abs (D a x)). split; [lia|]. intros b [<-|Hb]; [lia|]. specialize (H b Hb). lia. }
  assert (G : forall k, exists m, 0 <= m /\ forall a b, In a k -> In b l -> - m <= D a b).
  { induction k as [|x k (m & Hm & H)]; [exists 0; split; [lia|easy]|].
    destruct (R x l) as (m' & Hm' & H'). exists (m + m'). split; [lia|].
    intros a b [<-|Ha] Hb; [specialize (H' b Hb); lia|specialize (H a b Ha Hb); lia]. }
  destruct (G l) as (m & Hm & H). exists m. split; assumption.
Qed.

(** Repeating an operator that keeps the nodes and strictly improves terminates. *)
Lemma repeat_op_spec D op (route0 : list nat) :
  (forall r r' dl, Permutation route0 r -> op r = Some (r', dl) ->
      same_tour_nodes r r' /\ dl = path_cost D r' - path_cost D r /\ dl < 0) ->
  exists fuel0, forall fuel, (fuel0 <= fuel)%nat ->
   exists r', repeat_op op fuel route0 (path_cost D route0) = Some (r', path_cost D r') /\
     same_tour_nodes route0 r' /\ path_cost D r' <= path_cost D route0 /\ op r' = None.
Proof.
  intros Hop. destruct (matrix_bounded D route0) as (m & Hm & HB).
  set (low := - (m * Z.of_nat (length route0))).
  assert (LB : forall r, Permutation route0 r -> low <= path_cost D r).
  { intros r Hp. unfold low. rewrite (Permutation_length Hp). apply path_cost_lower; [|exact Hm].
    intros a b Ha Hb. apply HB; apply (Permutation_in _ (Permutation_sym Hp)); assumption. }
  assert (G : forall n r, same_tour_nodes route0 r -> path_cost D r - low <= Z.of_nat n ->
     forall fuel, (S n <= fuel)%nat ->
     exists r', repeat_op op fuel r (path_cost D r) = Some (r', path_cost D r') /\
     same_tour_nodes route0 r' /\ path_cost D r' <= path_cost D r /\ op r' = None).
  { induction n as [|n IH]; intros r Hr Hn fuel Hf; (destruct fuel as [|fuel]; [lia|]); cbn [repeat_op];
      destruct (op r) as [[r' dl]|] eqn:E.
    - destruct Hr as (Hp & Hh & Hl). destruct (Hop r r' dl Hp E) as ((Hp' & _) & -> & Hd).
      pose proof (LB r' (Permutation_trans Hp Hp')). lia.
    - exists r. split; [reflexivity|]. split; [exact Hr|]. split; [lia|exact E].
    - destruct Hr as (Hp & Hh & Hl). destruct (Hop r r' dl Hp E) as ((Hp' & Hh' & Hl') & -> & Hd).
      destruct (IH r') with (fuel := fuel) as (r'' & E' & S' & C' & O').
      + split; [now transitivity r|]. split; [now rewrite Hh'|now rewrite Hl'].
      + lia.
      + lia.
      + exists r''. replace (path_cost D r + (path_cost D r' - path_cost D r)) with (path_cost D r') by lia.
        split; [exact E'|]. split; [exact S'|]. split; [lia|exact O'].
    - exists r. split; [reflexivity|]. split; [exact Hr|]. split; [lia|exact E]. }
  exists (S (Z.to_nat (path_cost D route0 - low))). intros fuel Hf.
  apply (G (Z.to_nat (path_cost D route0 - low))).
  - repeat split; reflexivity.
  - specialize (LB route0 (Permutation_refl _)). lia.
  - exact Hf.
Qed.

Lemma solve_tsp_spec eps D idxs shuffled do2opt do3opt : 0 <= eps -> symmetric D -> idxs <> [] ->
  exists fuel0, forall fuel, (fuel0 <= fuel)%nat ->
  exists r, solve_tsp_ropt eps fuel D idxs shuffled do2opt do3opt = Some (Some (r, path_cost D r)) /\
    same_tour_nodes (initial_tour idxs shuffled) r /\
    path_cost D r <= path_cost D (initial_tour idxs shuffled) /\
    (do3opt = true -> forall r', three_opt_nbr r r' -> path_cost D r <= path_cost D r' + eps) /\
    (do2opt = true -> do3opt = false -> forall r', two_opt_nbr r r' -> path_cost D r <= path_cost D r' + eps).
Proof.
  intros Heps Hs Hne. set (r0 := initial_tour idxs shuffled).
  assert (H2 : forall r r' dl, do_2opt_move eps r D true None = Some (r', dl) ->
      same_tour_nodes r r' /\ dl = path_cost D r' - path_cost D r /\ dl < 0).
  { intros r r' dl E. pose proof (do_2opt_contract eps r D true None Heps Hs) as H. rewrite E in H. cbn in H.
    destruct H as (Hn & Hd & Hlt & _). split; [now apply two_opt_same|]. split; [exact Hd|lia]. }
  assert (H3 : forall r r' dl, do_3opt_move eps r D true None = Some (r', dl) ->
      same_tour_nodes r r' /\ dl = path_cost D r' - path_cost D r /\ dl < 0).
  { intros r r' dl E. pose proof (do_3opt_contract eps r D true None Heps Hs) as H. rewrite E in H. cbn in H.
    destruct H as (Hn & Hd & Hlt & _). split; [now apply three_opt_same|]. split; [exact Hd|lia]. }
  (* the 2-opt phase *)
  assert (P2 : exists f, forall fuel, (f <= fuel)%nat -> exists r,
     (if do2opt then repeat_op (fun r => do_2opt_move eps r D true None) fuel r0 (objf r0 D) else Some (r0, objf r0 D))
     = Some (r, path_cost D r) /\ same_tour_nodes r0 r /\ path_cost D r <= path_cost D r0 /\
     (do2opt = true -> do_2opt_move eps r D true None = None)).
  { rewrite objf_path. destruct do2opt.
    - destruct (repeat_op_spec D (fun r => do_2opt_move eps r D true None) r0) as (f & Hf).
      { intros r r' dl _. apply H2. }
      exists f. intros fuel Hle. destruct (Hf fuel Hle) as (r & E & A & B & C). exists r. auto.
    - exists 0%nat. intros fuel _. exists r0. repeat split; try reflexivity; try lia; try discriminate. }
  destruct P2 as (f2 & P2). destruct (P2 f2 (le_n _)) as (r & E2 & A2 & B2 & C2).
  assert (P3 : exists f, forall fuel, (f <= fuel)%nat -> exists r',
     (if do3opt then repeat_op (fun r => do_3opt_move eps r D true None) fuel r (path_cost D r) else Some (r, path_cost D r))
     = Some (r', path_cost D r') /\ same_tour_nodes r r' /\ path_cost D r' <= path_cost D r /\
     (do3opt = true -> do_3opt_move eps r' D true None = None) /\ (do3opt = false -> r' = r)).
  { destruct do3opt.
    - destruct (repeat_op_spec D (fun r => do_3opt_move eps r D true None) r) as (f & Hf).
      { intros q q' dl _. apply H3. }
      exists f. intros fuel Hle. destruct (Hf fuel Hle) as (r' & E & A & B & C). exists r'. repeat split; try apply A; auto; discriminate.
    - exists 0%nat. intros fuel _. exists r. repeat split; try reflexivity; try lia; try discriminate. }
  destruct P3 as (f3 & P3). exists (Nat.max f2 f3). intros fuel Hf.
  destruct (P2 fuel ltac:(lia)) as (r2 & E2' & A2' & B2' & C2').
  assert (Er : r2 = r).
  { (* both phases computed with enough fuel *)
    destruct do2opt; [|congruence].
    assert (mono : forall op n k q c x, (n <= k)%nat -> repeat_op op n q c = Some x -> repeat_op op k q c = Some x).
    { intros op n. induction n as [|n IH]; intros k q c x Hle E; [easy|].
      destruct k as [|k]; [lia|]. cbn [repeat_op] in *. destruct (op q) as [[q' dl]|]; [|exact E].
      apply IH; [lia|exact E]. }
    apply (mono _ f2 fuel) in E2; [|lia]. congruence. }
  subst r2. destruct (P3 fuel ltac:(lia)) as (r' & E3 & A3 & B3 & C3 & D3). exists r'. split.
  { unfold solve_tsp_ropt. destruct idxs as [|endp rest]; [easy|].
    match goal with |- context [objf ?x D] => replace x with r0 end.
    - rewrite E2'. rewrite E3. reflexivity.
    - unfold r0, initial_tour. cbn [hd]. destruct shuffled; [reflexivity|].
      destruct (Nat.eqb (last (endp :: rest) 0%nat) endp); reflexivity. }
  split; [|split; [|split]].
  - destruct A2 as (a1 & a2 & a3), A3 as (b1 & b2 & b3). split; [now transitivity r|]. split; congruence.
  - lia.
  - intros F q Hq. specialize (C3 F). pose proof (do_3opt_contract eps r' D true None Heps Hs) as H.
    rewrite C3 in H. cbn in H. specialize (H q Hq). lia.
  - intros F2 F3 q Hq. rewrite (D3 F3) in *. specialize (C2 F2).
    pose proof (do_2opt_contract eps r D true None Heps Hs) as H. rewrite C2 in H. cbn in H. specialize (H q Hq). lia.
Qed.

Lemma solve_tsp_tour eps D e rest shuffled do2opt do3opt : 0 <= eps -> symmetric D -> NoDup (e :: rest) ->
  match shuffled with Some p => Permutation p rest | None => rest <> [] end ->
  let start := match shuffled with Some p => p | None => rest end in
  exists fuel0, forall fuel, (fuel0 <= fuel)%nat ->
  exists r, solve_tsp_ropt eps fuel D (e :: rest) shuffled do2opt do3opt
            = Some (Some (e :: r ++ [e], path_cost D (e :: r ++ [e]))) /\
    Permutation r rest /\
    path_cost D (e :: r ++ [e]) <= path_cost D (e :: start ++ [e]) /\
    (do3opt = true -> forall t, three_opt_nbr (e :: r ++ [e]) t -> path_cost D (e :: r ++ [e]) <= path_cost D t + eps) /\
    (do2opt = true -> do3opt = false ->
       forall t, two_opt_nbr (e :: r ++ [e]) t -> path_cost D (e :: r ++ [e]) <= path_cost D t + eps).
Proof.
  intros Heps Hs Hn Hsh start.
  destruct (solve_tsp_spec eps D (e :: rest) shuffled do2opt do3opt Heps Hs ltac:(discriminate)) as (f0 & H).
  assert (Ei : initial_tour (e :: rest) shuffled = e :: start ++ [e]).
  { unfold initial_tour, start. cbn [hd]. destruct shuffled; [reflexivity|].
    destruct (Nat.eqb_spec (last (e :: rest) 0%nat) e) as [El|]; [|reflexivity].
    exfalso. inversion Hn as [|? ? Hni _]; subst. apply Hni. rewrite <- El at 1.
    destruct rest as [|y t]; [easy|]. change (In (last (y :: t) 0%nat) (y :: t)). now apply in_last. }
  rewrite Ei in H. exists f0. intros fuel Hf. destruct (H fuel Hf) as (r & E & (Hp & Hh & Hl) & Hc & H3 & H2).
  assert (Hr : exists q, r = e :: q ++ [e] /\ Permutation q start).
  { pose proof (Permutation_length Hp) as HL. cbn [length] in HL. rewrite app_length in HL. cbn [length] in HL.
    destruct r as [|x r]; [cbn in HL; lia|]. cbn in Hh. subst x.
    destruct r as [|x r]; [cbn in HL; lia|].
    destruct (exists_last (l := x :: r)) as (q & z & Eq); [discriminate|]. rewrite Eq in *.
    exists q. change (e :: q ++ [z]) with ((e :: q) ++ [z]) in Hl.
    change (e :: start ++ [e]) with ((e :: start) ++ [e]) in Hl. rewrite !last_last in Hl. subst z.
    split; [reflexivity|]. apply Permutation_cons_inv in Hp.
    symmetry. now apply Permutation_app_inv_r in Hp. }
  destruct Hr as (q & -> & Hq). exists q. repeat split; try assumption.
  rewrite Hq. unfold start. destruct shuffled; [assumption|reflexivity].
Qed.
