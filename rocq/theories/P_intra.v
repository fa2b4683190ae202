(** * Proofs about the intra-route operators *)
From Verif Require Import Spec Spec_ls PyBase M_util M_intra P_base P_cvrp P_scan.
From Coq Require Import ZifyBool ZifyNat.

(** ** Pieces of lists *)
Lemma app_ne_l {A} (l1 l2 : list A) : l1 <> [] -> l1 ++ l2 <> [].
Proof. now destruct l1. Qed.
Lemma app_ne_r {A} (l1 l2 : list A) : l2 <> [] -> l1 ++ l2 <> [].
Proof. destruct l1; [easy|discriminate]. Qed.
Lemma rev_ne {A} (l : list A) : l <> [] -> rev l <> [].
Proof. intros H E. apply H. rewrite <- (rev_involutive l), E. reflexivity. Qed.
Ltac ne := solve [ repeat first [ assumption | discriminate | apply rev_ne
   | (apply app_ne_l; solve [ne1]) | (apply app_ne_r; solve [ne1]) ] ]
with ne1 := solve [ repeat first [ assumption | discriminate | apply rev_ne
   | (apply app_ne_l; solve [ne1]) | (apply app_ne_r; solve [ne1]) ] ].

Lemma hd_app_ne {A} (x : A) l1 l2 : l1 <> [] -> hd x (l1 ++ l2) = hd x l1.
Proof. now destruct l1. Qed.
Lemma last_app_ne {A} (x : A) l1 l2 : l2 <> [] -> last (l1 ++ l2) x = last l2 x.
Proof.
  intros H. induction l1 as [|a l1 IH]; [reflexivity|]. cbn [app].
  destruct (l1 ++ l2) eqn:E; [exfalso; revert E; now apply app_ne_r|]. exact IH.
Qed.
Lemma at_hd l1 l2 n : n = length l1 -> at_ (l1 ++ l2) n = hd 0%nat l2.
Proof. intros ->. unfold at_. rewrite app_nth2, Nat.sub_diag by lia. destruct l2; reflexivity. Qed.
Lemma at_last l1 l2 n : l1 <> [] -> S n = length l1 -> at_ (l1 ++ l2) n = last l1 0%nat.
Proof.
  intros H E. unfold at_. rewrite app_nth1 by lia.
  revert n E. induction l1 as [|a l1 IH]; [easy|]. intros n E. cbn in E.
  destruct l1 as [|b l1]; [now replace n with 0%nat by (cbn in E; lia)|].
  destruct n as [|n]; [cbn in E; lia|]. change (nth n (b :: l1) 0%nat = last (b :: l1) 0%nat).
  apply IH; [discriminate|lia].
Qed.
Lemma slice_to_app {A} (l1 l2 : list A) n : n = length l1 -> slice_to n (l1 ++ l2) = l1.
Proof. intros ->. unfold slice_to. rewrite firstn_app, Nat.sub_diag, firstn_all. cbn. apply app_nil_r. Qed.
Lemma slice_from_app {A} (l1 l2 : list A) n : n = length l1 -> slice_from n (l1 ++ l2) = l2.
Proof. intros ->. unfold slice_from. now rewrite skipn_app, Nat.sub_diag, skipn_all. Qed.
Lemma slice_app {A} (l1 l2 l3 : list A) a b : a = length l1 -> b = (length l1 + length l2)%nat ->
  slice a b (l1 ++ l2 ++ l3) = l2.
Proof.
  intros -> ->. unfold slice. rewrite skipn_app, Nat.sub_diag, skipn_all. cbn [app skipn].
  replace (length l1 + length l2 - length l1)%nat with (length l2) by lia.
  rewrite firstn_app, Nat.sub_diag, firstn_all. cbn. apply app_nil_r.
Qed.
Lemma rslice_app {A} (l1 l2 l3 : list A) a b : S b = length l1 -> S a = (length l1 + length l2)%nat ->
  rslice a b (l1 ++ l2 ++ l3) = rev l2.
Proof. intros H1 H2. unfold rslice. f_equal. apply slice_app; lia. Qed.
Lemma split_at {A} (l : list A) n : (n <= length l)%nat -> exists l1 l2, l = l1 ++ l2 /\ length l1 = n.
Proof.
  intros H. exists (firstn n l), (skipn n l). split; [now rewrite firstn_skipn|]. apply firstn_length_le. exact H.
Qed.
Lemma len_ne {A} (l : list A) : (0 < length l)%nat -> l <> [].
Proof. destruct l; cbn; [lia|discriminate]. Qed.
Lemma ne_len {A} (l : list A) : l <> [] -> (0 < length l)%nat.
Proof. destruct l; cbn; [easy|lia]. Qed.
Lemma last_one {A} (x y : A) : last [x] y = x. Proof. reflexivity. Qed.

Lemma hd_rev0 (r : list nat) : r <> [] -> hd 0%nat (rev r) = last r 0%nat.
Proof. apply hd_rev_last. Qed.
Lemma last_rev0 (r : list nat) : r <> [] -> last (rev r) 0%nat = hd 0%nat r.
Proof. apply last_rev_hd. Qed.

Ltac pc := rewrite ?path_cost_app by ne; rewrite ?hd_app_ne by ne;
  rewrite ?hd_rev0, ?last_rev0, ?last_one by ne.

(** ** 2-opt *)
Lemma cost_2opt D l1 l2 l3 : symmetric D -> l1 <> [] -> l2 <> [] -> l3 <> [] ->
  path_cost D (l1 ++ rev l2 ++ l3) - path_cost D (l1 ++ l2 ++ l3) =
  D (last l1 0%nat) (last l2 0%nat) + D (hd 0%nat l2) (hd 0%nat l3)
  - D (last l1 0%nat) (hd 0%nat l2) - D (last l2 0%nat) (hd 0%nat l3).
Proof.
  intros Hs H1 H2 H3. pc. rewrite path_cost_rev by exact Hs. lia.
Qed.

Lemma ltb_false a b : (a <? b) = false -> b <= a.
Proof. destruct (Z.ltb_spec a b); [discriminate|lia]. Qed.

(** Turning a scan over indices into the contract. *)
Lemma scan_contract {M} (eps : Z) (first : bool) (cands : list (Z * M)) (b0 cur : Z)
      (build : M -> list nat) (cost : list nat -> Z) (nbr : list nat -> Prop) :
  0 <= eps ->
  (forall dl m, In (dl, m) cands -> nbr (build m) /\ dl = cost (build m) - cur) ->
  (forall r, nbr r -> exists dl m, In (dl, m) cands /\ dl = cost r - cur) ->
  finds_improvement cost nbr cur b0 eps (negb first)
    (match fst (scan eps first cands (None, b0)) with
     | (Some m, bd) => Some (build m, bd)
     | (None, _) => None
     end).
Proof.
  intros Heps Hs Hc. pose proof (scan_spec eps first cands b0 Heps) as H.
  destruct (fst (scan eps first cands (None, b0))) as [[m|] bd]; unfold scan_post in H; cbn [fst snd] in H.
  - destruct H as (H1 & H2 & H3 & _). destruct (Hs _ _ H1) as [Hn Hd]. cbn.
    repeat split; [exact Hn|exact Hd|exact H2|].
    intros Hb r Hr. destruct (Hc r Hr) as (dl & m' & Hin & ->).
    apply (H3 (ltac:(now destruct first)) _ _ Hin).
  - destruct H as (_ & H). cbn. intros r Hr. destruct (Hc r Hr) as (dl & m' & Hin & ->).
    apply (H _ _ Hin).
Qed.

(** Soundness only, for operators whose completeness needs more hypotheses. *)
Lemma scan_sound {M} (eps : Z) (first : bool) (cands : list (Z * M)) (b0 : Z) m bd :
  0 <= eps -> fst (scan eps first cands (None, b0)) = (Some m, bd) -> In (bd, m) cands /\ bd + eps < b0.
Proof.
  intros Heps E. pose proof (scan_spec eps first cands b0 Heps) as H. rewrite E in H.
  unfold scan_post in H; cbn [fst snd] in H. tauto.
Qed.

Definition cands_2opt (route : list nat) (D : matrix) : list (Z * (nat * nat)) :=
  flat_map (fun i => flat_map (fun j =>
      [(D (at_ route i) (at_ route j) + D (at_ route (i + 1)) (at_ route (j + 1))
        - D (at_ route i) (at_ route (i + 1)) - D (at_ route j) (at_ route (j + 1)), (i, j))])
    (range (i + 1) (length route - 1))) (range 0 (length route - 1)).

Definition build_2opt (route : list nat) (m : nat * nat) : list nat :=
  slice_to (fst m + 1) route ++ rslice (snd m) (fst m) route ++ slice_from (snd m + 1) route.

Lemma do_2opt_scan eps route D first bd0 :
  do_2opt_move eps route D first bd0 =
  match fst (scan eps first (cands_2opt route D) (None, start_delta bd0)) with
  | (Some m, bd) => Some (build_2opt route m, bd)
  | (None, _) => None
  end.
Proof.
  unfold do_2opt_move, cands_2opt. rewrite <- scan_flat.
  erewrite for_break_ext.
  2: { intros i s _. erewrite for_break_ext; [rewrite scan_flat; reflexivity|].
       intros j s' _. symmetry. apply scan_one. }
  match goal with |- context [for_break ?l ?b ?s] => destruct (for_break l b s) as [[[[i j]|] bd] brk] end; reflexivity.
Qed.

Lemma in_cands_2opt route D dl m : In (dl, m) (cands_2opt route D) <->
  exists i j, (i < j /\ j + 1 < length route)%nat /\ m = (i, j) /\
   dl = D (at_ route i) (at_ route j) + D (at_ route (i + 1)) (at_ route (j + 1))
        - D (at_ route i) (at_ route (i + 1)) - D (at_ route j) (at_ route (j + 1)).
Proof.
  unfold cands_2opt. rewrite in_flat_map. split.
  - intros (i & Hi & H). rewrite in_flat_map in H. destruct H as (j & Hj & [E|[]]).
    rewrite in_range in Hi, Hj. injection E as <- <-. exists i, j. repeat split; lia.
  - intros (i & j & Hij & -> & ->). exists i. rewrite in_range. split; [lia|].
    rewrite in_flat_map. exists j. rewrite in_range. split; [lia|now left].
Qed.

Lemma pieces_2opt D l1 l2 l3 i j : symmetric D -> l1 <> [] -> l2 <> [] -> l3 <> [] ->
  S i = length l1 -> S j = (length l1 + length l2)%nat ->
  let route := l1 ++ l2 ++ l3 in
  build_2opt route (i, j) = l1 ++ rev l2 ++ l3 /\
  D (at_ route i) (at_ route j) + D (at_ route (i + 1)) (at_ route (j + 1))
        - D (at_ route i) (at_ route (i + 1)) - D (at_ route j) (at_ route (j + 1)) =
  path_cost D (l1 ++ rev l2 ++ l3) - path_cost D route.
Proof.
  intros Hs H1 H2 H3 Hi Hj route. split.
  - unfold build_2opt, route. cbn [fst snd]. rewrite slice_to_app by lia.
    rewrite rslice_app by lia. rewrite (app_assoc l1 l2 l3), slice_from_app by (rewrite app_length; lia). reflexivity.
  - unfold route at 9. rewrite cost_2opt by assumption.
    unfold route. rewrite (at_last l1 (l2 ++ l3) i) by (assumption || lia).
    rewrite (at_hd l1 (l2 ++ l3) (i + 1)) by lia.
    rewrite (app_assoc l1 l2 l3). rewrite (at_last (l1 ++ l2) l3 j) by (ne || (rewrite app_length; lia)).
    rewrite (at_hd (l1 ++ l2) l3 (j + 1)) by (rewrite app_length; lia).
    rewrite last_app_ne, hd_app_ne by assumption. reflexivity.
Qed.

Lemma do_2opt_contract eps route D first bd0 : 0 <= eps -> symmetric D ->
  finds_improvement (path_cost D) (two_opt_nbr route) (path_cost D route) (start_delta bd0) eps (negb first)
    (do_2opt_move eps route D first bd0).
Proof.
  intros Heps Hs. rewrite do_2opt_scan. apply scan_contract; [exact Heps| |].
  - intros dl m Hin. apply in_cands_2opt in Hin. destruct Hin as (i & j & Hij & -> & ->).
    destruct (split_at route (i + 1)) as (l1 & q & -> & Hl1); [lia|].
    rewrite app_length in Hij.
    destruct (split_at q (j - i)) as (l2 & l3 & -> & Hl2); [lia|].
    rewrite app_length in Hij.
    assert (N1 : l1 <> []) by (apply len_ne; lia). assert (N2 : l2 <> []) by (apply len_ne; lia).
    assert (N3 : l3 <> []) by (apply len_ne; lia).
    destruct (pieces_2opt D l1 l2 l3 i j) as [E1 E2]; try assumption; try lia.
    rewrite E2, E1. split; [|reflexivity]. exists l1, l2, l3. now repeat split.
  - intros r (l1 & l2 & l3 & N1 & N2 & N3 & -> & ->).
    pose proof (ne_len _ N1). pose proof (ne_len _ N2). pose proof (ne_len _ N3).
    set (i := (length l1 - 1)%nat). set (j := (length l1 + length l2 - 1)%nat).
    destruct (pieces_2opt D l1 l2 l3 i j) as [E1 E2]; try assumption; try (unfold i, j; lia).
    eexists. exists (i, j). split.
    + apply in_cands_2opt. exists i, j. split; [|split; [reflexivity|reflexivity]].
      rewrite !app_length. unfold i, j. lia.
    + exact E2.
Qed.

Lemma perm_mid2 {A} (l1 a b l3 : list A) : Permutation a b -> Permutation (l1 ++ a ++ l3) (l1 ++ b ++ l3).
Proof. intros H. apply Permutation_app_head. now apply Permutation_app_tail. Qed.

Lemma two_opt_same route r' : two_opt_nbr route r' -> same_tour_nodes route r'.
Proof.
  intros (l1 & l2 & l3 & N1 & N2 & N3 & -> & ->). split; [|split].
  - apply perm_mid2, Permutation_rev.
  - now rewrite !hd_app_ne.
  - now rewrite !last_app_ne by ne.
Qed.

(** ** 3-opt *)
(** The candidates without the duplicate delta. *)
Definition live_3opt (route : list nat) (D : matrix) (i j k : nat) : list (Z * move3) :=
  match cands_3opt route D i j k with
  | c1 :: _ :: rest => c1 :: rest
  | l => l
  end.

Lemma scan_live eps first route D i j k s : 0 <= eps ->
  scan eps first (cands_3opt route D i j k) s = scan eps first (live_3opt route D i j k) s.
Proof. intros H. unfold live_3opt, cands_3opt. cbv zeta. now apply scan_stale. Qed.

Definition all_3opt (route : list nat) (D : matrix) : list (Z * move3) :=
  flat_map (fun i => flat_map (fun j => flat_map (fun k => live_3opt route D i j k)
    (range (j + 1) (length route - 1))) (range (i + 1) (length route - 1))) (range 0 (length route - 1)).

Definition build_3opt (route : list nat) (m : move3) : list nat :=
  let '(h, s2, s3, t) := m in
  slice_to h route ++ get_seg route s2 ++ get_seg route s3 ++ slice_from t route.

Lemma do_3opt_scan eps route D first bd0 : 0 <= eps ->
  do_3opt_move eps route D first bd0 =
  match fst (scan eps first (all_3opt route D) (None, start_delta bd0)) with
  | (Some m, bd) => Some (build_3opt route m, bd)
  | (None, _) => None
  end.
Proof.
  intros Heps. unfold do_3opt_move, all_3opt. rewrite <- scan_flat.
  erewrite for_break_ext.
  2: { intros i s _. erewrite for_break_ext; [rewrite scan_flat; reflexivity|].
       intros j s' _. erewrite for_break_ext; [rewrite scan_flat; reflexivity|].
       intros k s'' _. apply (scan_live eps first route D i j k s'' Heps). }
  match goal with |- context [for_break ?l ?b ?s] => destruct (for_break l b s) as [[[[[[h s2] s3] t]|] bd] brk] end; reflexivity.
Qed.

Lemma in_all_3opt route D dl m : In (dl, m) (all_3opt route D) <->
  exists i j k, (i < j /\ j < k /\ k + 1 < length route)%nat /\ In (dl, m) (live_3opt route D i j k).
Proof.
  unfold all_3opt. rewrite in_flat_map. split.
  - intros (i & Hi & H). rewrite in_flat_map in H. destruct H as (j & Hj & H).
    rewrite in_flat_map in H. destruct H as (k & Hk & H). rewrite in_range in Hi, Hj, Hk.
    exists i, j, k. split; [lia|exact H].
  - intros (i & j & k & Hb & H). exists i. rewrite in_range. split; [lia|].
    rewrite in_flat_map. exists j. rewrite in_range. split; [lia|].
    rewrite in_flat_map. exists k. rewrite in_range. split; [lia|exact H].
Qed.

(** The live reconnections: everything but [l1 ++ rev l2 ++ l3 ++ l4]. *)
Definition live_moves (l1 l2 l3 l4 : list nat) : list (list nat) :=
  [ l1 ++ l2 ++ rev l3 ++ l4; l1 ++ rev l3 ++ rev l2 ++ l4; l1 ++ rev l2 ++ rev l3 ++ l4;
    l1 ++ l3 ++ l2 ++ l4; l1 ++ l3 ++ rev l2 ++ l4; l1 ++ rev l3 ++ l2 ++ l4 ].

Lemma pieces_3opt D l1 l2 l3 l4 i j k : symmetric D -> l1 <> [] -> l2 <> [] -> l3 <> [] -> l4 <> [] ->
  S i = length l1 -> S j = (length l1 + length l2)%nat -> S k = (length l1 + length l2 + length l3)%nat ->
  let route := l1 ++ l2 ++ l3 ++ l4 in
  map (fun c => (fst c, build_3opt route (snd c))) (live_3opt route D i j k) =
  map (fun r => (path_cost D r - path_cost D route, r)) (live_moves l1 l2 l3 l4).
Proof.
  intros Hs H1 H2 H3 H4 Hi Hj Hk route.
  assert (Ea : at_ route i = last l1 0%nat) by (unfold route; apply at_last; [assumption|lia]).
  assert (Eb : at_ route (i + 1) = hd 0%nat l2).
  { unfold route. rewrite at_hd by lia. now apply hd_app_ne. }
  assert (Ec : at_ route j = last l2 0%nat).
  { unfold route. rewrite app_assoc. rewrite at_last; [|ne|rewrite app_length; lia]. now apply last_app_ne. }
  assert (Ed : at_ route (j + 1) = hd 0%nat l3).
  { unfold route. rewrite app_assoc. rewrite at_hd by (rewrite app_length; lia). now apply hd_app_ne. }
  assert (Ee : at_ route k = last l3 0%nat).
  { unfold route. rewrite (app_assoc l2), (app_assoc l1).
    rewrite at_last; [|ne|rewrite !app_length; lia]. now rewrite !last_app_ne by ne. }
  assert (Ef : at_ route (k + 1) = hd 0%nat l4).
  { unfold route. rewrite (app_assoc l2), (app_assoc l1). apply at_hd. rewrite !app_length; lia. }
  assert (S1 : slice_to (i + 1) route = l1) by (apply slice_to_app; lia).
  assert (S4 : slice_from (k + 1) route = l4).
  { unfold route. rewrite (app_assoc l2), (app_assoc l1). apply slice_from_app. rewrite !app_length; lia. }
  assert (S2 : slice (i + 1) (j + 1) route = l2) by (apply slice_app; lia).
  assert (S2r : rslice j i route = rev l2) by (apply rslice_app; lia).
  assert (S3 : slice (j + 1) (k + 1) route = l3).
  { unfold route. rewrite app_assoc. apply slice_app; rewrite app_length; lia. }
  assert (S3r : rslice k j route = rev l3).
  { unfold route. rewrite app_assoc. apply rslice_app; rewrite app_length; lia. }
  unfold live_3opt, cands_3opt. cbv zeta. rewrite Ea, Eb, Ec, Ed, Ee, Ef.
  unfold live_moves, build_3opt, get_seg. cbn [map fst snd]. rewrite S1, S2, S2r, S3, S3r, S4.
  assert (P2 : path_cost D (rev l2) = path_cost D l2) by now apply path_cost_rev.
  assert (P3 : path_cost D (rev l3) = path_cost D l3) by now apply path_cost_rev.
  unfold route.
  repeat (apply (f_equal2 cons); [apply (f_equal2 pair); [|reflexivity]; pc; rewrite ?P2, ?P3|]); [..|reflexivity].
  - lia.
  - rewrite (Hs (hd 0%nat l3) (last l2 0%nat)). lia.
  - lia.
  - lia.
  - lia.
  - lia.
Qed.

Lemma live_incl l1 l2 l3 l4 r : l1 <> [] -> l2 <> [] -> l3 <> [] -> l4 <> [] ->
  In r (live_moves l1 l2 l3 l4) -> three_opt_nbr (l1 ++ l2 ++ l3 ++ l4) r.
Proof.
  intros H1 H2 H3 H4 H. exists l1, l2, l3, l4. repeat split; try assumption.
  cbn in H. intuition.
Qed.

(** The reconnection missed by the code is covered by others. *)
Lemma three_opt_live route r : three_opt_nbr route r ->
  exists l1 l2 l3 l4, l1 <> [] /\ l2 <> [] /\ l3 <> [] /\ l4 <> [] /\
    route = l1 ++ l2 ++ l3 ++ l4 /\ In r (live_moves l1 l2 l3 l4).
Proof.
  intros (l1 & l2 & l3 & l4 & H1 & H2 & H3 & H4 & -> & H).
  destruct H as [H|[H|[H|[H|[H|[H|H]]]]]].
  2: { destruct l2 as [|x [|y t]]; [easy| |].
       - destruct l3 as [|z t]; [easy|]. exists l1, [x], [z], (t ++ l4).
         repeat split; try assumption; try ne. cbn. left. exact (eq_sym H).
       - exists l1, [x], (y :: t), (l3 ++ l4). repeat split; try assumption; try ne.
         cbn [live_moves In]. right; left. rewrite H. cbn [rev app]. now rewrite <- !app_assoc. }
  all: exists l1, l2, l3, l4; repeat split; try assumption; cbn; intuition.
Qed.

Lemma do_3opt_contract eps route D first bd0 : 0 <= eps -> symmetric D ->
  finds_improvement (path_cost D) (three_opt_nbr route) (path_cost D route) (start_delta bd0) eps (negb first)
    (do_3opt_move eps route D first bd0).
Proof.
  intros Heps Hs. rewrite do_3opt_scan by exact Heps. apply scan_contract; [exact Heps| |].
  - intros dl m Hin. apply in_all_3opt in Hin. destruct Hin as (i & j & k & Hb & Hin).
    destruct (split_at route (i + 1)) as (l1 & q & -> & Hl1); [lia|]. rewrite app_length in Hb.
    destruct (split_at q (j - i)) as (l2 & q3 & -> & Hl2); [lia|]. rewrite app_length in Hb.
    destruct (split_at q3 (k - j)) as (l3 & l4 & -> & Hl3); [lia|]. rewrite app_length in Hb.
    assert (N1 : l1 <> []) by (apply len_ne; lia). assert (N2 : l2 <> []) by (apply len_ne; lia).
    assert (N3 : l3 <> []) by (apply len_ne; lia). assert (N4 : l4 <> []) by (apply len_ne; lia).
    pose proof (pieces_3opt D l1 l2 l3 l4 i j k Hs N1 N2 N3 N4) as HP.
    specialize (HP ltac:(lia) ltac:(lia) ltac:(lia)). cbv zeta in HP.
    apply (in_map (fun c => (fst c, build_3opt (l1 ++ l2 ++ l3 ++ l4) (snd c)))) in Hin.
    rewrite HP in Hin. cbn [fst snd] in Hin. apply in_map_iff in Hin. destruct Hin as (r & E & Hr).
    injection E as <- <-. split; [|reflexivity]. now apply live_incl.
  - intros r Hr. apply three_opt_live in Hr. destruct Hr as (l1 & l2 & l3 & l4 & N1 & N2 & N3 & N4 & -> & Hr).
    pose proof (ne_len _ N1). pose proof (ne_len _ N2). pose proof (ne_len _ N3). pose proof (ne_len _ N4).
    set (i := (length l1 - 1)%nat). set (j := (length l1 + length l2 - 1)%nat).
    set (k := (length l1 + length l2 + length l3 - 1)%nat).
    pose proof (pieces_3opt D l1 l2 l3 l4 i j k Hs N1 N2 N3 N4) as HP.
    specialize (HP ltac:(unfold i; lia) ltac:(unfold j; lia) ltac:(unfold k; lia)). cbv zeta in HP.
    apply (in_map (fun r => (path_cost D r - path_cost D (l1 ++ l2 ++ l3 ++ l4), r))) in Hr.
    rewrite <- HP in Hr. apply in_map_iff in Hr. destruct Hr as ([dl m] & E & Hin).
    cbn [fst snd] in E. injection E as E1 E2. exists dl, m. split; [|exact E1].
    apply in_all_3opt. exists i, j, k. split; [|exact Hin]. rewrite !app_length. unfold i, j, k. lia.
Qed.

Lemma three_opt_same route r' : three_opt_nbr route r' -> same_tour_nodes route r'.
Proof.
  intros (l1 & l2 & l3 & l4 & H1 & H2 & H3 & H4 & -> & H).
  assert (P : forall a b, Permutation (l2 ++ l3) (a ++ b) -> a <> [] -> b <> [] ->
     same_tour_nodes (l1 ++ l2 ++ l3 ++ l4) (l1 ++ a ++ b ++ l4)).
  { intros a b HP Ha Hb. split; [|split].
    - rewrite (app_assoc l2), (app_assoc a). now apply perm_mid2.
    - now rewrite !hd_app_ne.
    - now rewrite !last_app_ne by ne. }
  assert (R2 := Permutation_rev l2). assert (R3 := Permutation_rev l3).
  destruct H as [->|[->|[->|[->|[->|[->| ->]]]]]]; (apply P; [|ne|ne]).
  - now apply Permutation_app_head.
  - now apply Permutation_app_tail.
  - now apply Permutation_app.
  - apply Permutation_app_comm.
  - rewrite Permutation_app_comm. now apply Permutation_app_tail.
  - rewrite Permutation_app_comm. now apply Permutation_app_head.
  - rewrite Permutation_app_comm. now apply Permutation_app.
Qed.

(** Three-opt covers two-opt on routes with at least four nodes. *)
Lemma two_opt_in_three_opt route r : (4 <= length route)%nat -> two_opt_nbr route r -> three_opt_nbr route r.
Proof.
  intros HN (l1 & l2 & l3 & N1 & N2 & N3 & -> & ->). rewrite !app_length in HN.
  destruct l1 as [|a [|a' l1]]; [easy| |].
  - destruct l3 as [|e [|e' l3]]; [easy| |].
    + destruct l2 as [|b [|b' l2]]; [easy|cbn in HN; lia|].
      exists [a], [b], (b' :: l2), [e]. repeat split; try ne. do 6 right. cbn [rev app]. now rewrite <- !app_assoc.
    + exists [a], l2, [e], (e' :: l3). repeat split; try ne. right; left. reflexivity.
  - destruct (exists_last (l := a' :: l1)) as (p & z & E); [discriminate|]. rewrite E.
    exists (a :: p), [z], l2, l3. repeat split; try ne.
    + cbn [app]. now rewrite <- app_assoc.
    + left. cbn [app]. now rewrite <- app_assoc.
Qed.
