(** * Proofs about the inter-route operators: 2-point, chain, 2-opt* *)
From Verif Require Import Spec Spec_ls Spec_inter PyBase M_util M_routedata M_intra M_inter
     P_base P_cvrp P_rd P_scan P_intra P_intra2 P_inter.
From Coq Require Import ZifyBool ZifyNat.

(** ** 2-point move *)
Section TwoPoint.
Variables (eps : Z) (rd1 rd2 : routedata) (D : matrix) (d : demands) (C L : limit) (first : bool).
Let route1 := rd_route rd1.
Let route2 := rd_route rd2.
Definition sw_delta (ra rb : list nat) (i j : nat) :=
  - D (at_ ra (i - 1)) (at_ ra i) - D (at_ ra i) (at_ ra (i + 1))
  + D (at_ ra (i - 1)) (at_ rb j) + D (at_ rb j) (at_ ra (i + 1)).
Definition viol_C2 i j := exceeds C eps (odem rd1 - d (at_ route1 i) + d (at_ route2 j)) ||
           exceeds C eps (odem rd2 - d (at_ route2 j) + d (at_ route1 i)).
Definition viol_L2 i j := exceeds L 0 (rd_cost rd1 + sw_delta route1 route2 i j) ||
           exceeds L 0 (rd_cost rd2 + sw_delta route2 route1 j i).
Definition cands_2pt : list (Z * (nat * nat * Z * Z)) :=
  flat_map (fun i =>
    flat_map (fun j => if viol_C2 i j then [] else if viol_L2 i j then []
       else [(sw_delta route1 route2 i j + sw_delta route2 route1 j i,
              (i, j, sw_delta route1 route2 i j, sw_delta route2 route1 j i))])
      (range 1 (length route2 - 1))) (range 1 (length route1 - 1)).
Definition mk_2pt (m : nat * nat * Z * Z) : list routedata :=
  let '(i, j, dl1, dl2) := m in
  let to_swap1 := at_ route1 i in
  let to_swap2 := at_ route2 j in
  [ mkrd (slice_to i route1 ++ [to_swap2] ++ slice_from (i + 1) route1) (rd_cost rd1 + dl1)
                   (if_set C (odem rd1 - d to_swap1 + d to_swap2));
    mkrd (slice_to j route2 ++ [to_swap1] ++ slice_from (j + 1) route2) (rd_cost rd2 + dl2)
                   (if_set C (odem rd2 - d to_swap2 + d to_swap1)) ].

Lemma in_cands_2pt dl m : In (dl, m) cands_2pt <->
  exists i j, (1 <= i < length route1 - 1)%nat /\ (1 <= j < length route2 - 1)%nat /\
    viol_C2 i j = false /\ viol_L2 i j = false /\
    dl = sw_delta route1 route2 i j + sw_delta route2 route1 j i /\
    m = (i, j, sw_delta route1 route2 i j, sw_delta route2 route1 j i).
Proof.
  unfold cands_2pt. rewrite in_flat_map. split.
  - intros (i & Hi & H). rewrite in_range in Hi.
    rewrite in_flat_map in H. destruct H as (j & Hj & H). rewrite in_range in Hj.
    destruct (viol_C2 i j) eqn:E; [easy|].
    destruct (viol_L2 i j) eqn:E2; [easy|]. destruct H as [H|[]].
    injection H as <- <-. exists i, j. repeat split; assumption || lia.
  - intros (i & j & Hi & Hj & E & E2 & -> & ->). exists i. rewrite in_range. split; [lia|].
    rewrite in_flat_map. exists j. rewrite in_range. split; [lia|]. rewrite E, E2. now left.
Qed.

Lemma do_2point_scan bd0 : 0 <= eps ->
  do_2point_move eps rd1 rd2 D d C L first bd0 =
  match fst (scan eps first cands_2pt (None, start_delta bd0)) with
  | (Some m, bd) => Some (mk_2pt m, bd)
  | (None, _) => None
  end.
Proof.
  intros Heps.
  assert (E : for_break (range 1 (length route1 - 1)) (fun i s =>
      for_break (range 1 (length route2 - 1)) (fun j s =>
          if viol_C2 i j then (s, false) else if viol_L2 i j then (s, false)
          else try_move eps first (sw_delta route1 route2 i j + sw_delta route2 route1 j i)
              (i, j, sw_delta route1 route2 i j, sw_delta route2 route1 j i) s) s)
      (None, start_delta bd0) = scan eps first cands_2pt (None, start_delta bd0)).
  { unfold cands_2pt. rewrite <- scan_flat. apply for_break_ext. intros i s _.
    rewrite <- scan_flat. apply for_break_ext. intros j s' _.
    destruct (viol_C2 i j); [reflexivity|]. destruct (viol_L2 i j); [reflexivity|]. symmetry. apply scan_one. }
  pose proof (scan_spec eps first cands_2pt (start_delta bd0) Heps) as HS.
  rewrite <- E in HS |- *. clear E.
  unfold do_2point_move. fold route1 route2. cbv zeta.
  match goal with |- context [for_break ?l ?b ?s] =>
    match type of HS with context [for_break ?l' ?b' ?s'] => change (for_break l' b' s') with (for_break l b s) in *  end end.
  match goal with |- context [for_break ?l ?b ?s] => destruct (for_break l b s) as [[[[[[i j] rem] ins]|] bd] brk] end; [|reflexivity].
  cbn [fst] in *. unfold mk_2pt. cbv zeta. do 2 f_equal.
  unfold scan_post in HS. cbn [fst snd] in HS. destruct HS as (Hin & _).
  apply in_cands_2pt in Hin. destruct Hin as (i' & j' & _ & _ & _ & _ & -> & Em).
  injection Em as -> -> -> ->. reflexivity.
Qed.

Variables (r1 r2 : list nat).
Hypotheses (H1 : exact_rd D d C r1 rd1) (H2 : exact_rd D d C r2 rd2).

Lemma sw_delta_spec l1 b l2 m1 e m2 :
  sw_delta (wrap (l1 ++ [b] ++ l2)) (wrap (m1 ++ [e] ++ m2)) (S (length l1)) (S (length m1)) =
  route_cost D (l1 ++ [e] ++ l2) - route_cost D (l1 ++ [b] ++ l2).
Proof.
  unfold sw_delta. rewrite (at_wrap_mid l1 b l2 (S (length l1)) eq_refl), (at_wrap_mid m1 e m2 (S (length m1)) eq_refl). rewrite (at_wrap_pre l1) by lia.
  rewrite at_wrap_after by lia. rewrite !rc_mid. lia.
Qed.

Lemma pieces_2pt l1 b l2 m1 e m2 : r1 = l1 ++ [b] ++ l2 -> r2 = m1 ++ [e] ++ m2 ->
  let i := S (length l1) in let j := S (length m1) in
  at_ route1 i = b /\ at_ route2 j = e /\
  route_cost D (l1 ++ [e] ++ l2) = route_cost D r1 + sw_delta route1 route2 i j /\
  route_cost D (m1 ++ [b] ++ m2) = route_cost D r2 + sw_delta route2 route1 j i /\
  Forall2 (exact_rd D d C) [l1 ++ [e] ++ l2; m1 ++ [b] ++ m2]
    (mk_2pt (i, j, sw_delta route1 route2 i j, sw_delta route2 route1 j i)).
Proof.
  intros E1 E2 i j. subst r1 r2.
  pose proof (exact_dem _ _ _ _ _ H1) as Hd1. pose proof (exact_dem _ _ _ _ _ H2) as Hd2.
  destruct H1 as (R1 & C1 & _), H2 as (R2 & C2 & _). fold route1 in R1. fold route2 in R2.
  assert (Eb : at_ route1 i = b) by (rewrite R1; now apply at_wrap_mid).
  assert (Ee : at_ route2 j = e) by (rewrite R2; now apply at_wrap_mid).
  assert (K1 : route_cost D (l1 ++ [e] ++ l2) = route_cost D (l1 ++ [b] ++ l2) + sw_delta route1 route2 i j).
  { rewrite R1, R2. unfold i, j. rewrite sw_delta_spec. lia. }
  assert (K2 : route_cost D (m1 ++ [b] ++ m2) = route_cost D (m1 ++ [e] ++ m2) + sw_delta route2 route1 j i).
  { rewrite R1, R2. unfold i, j. rewrite sw_delta_spec. lia. }
  split; [exact Eb|]. split; [exact Ee|]. split; [exact K1|]. split; [exact K2|].
  unfold mk_2pt. rewrite Eb, Ee. constructor; [|constructor; [|constructor]].
  - repeat split; cbn [rd_route rd_cost rd_demand].
    + rewrite R1. rewrite to_wrap by reflexivity. rewrite from_wrap_after by (unfold i; lia).
      unfold wrap. cbn [app]. now rewrite <- app_assoc.
    + rewrite K1, C1. reflexivity.
    + intros HC. rewrite if_set_spec by exact HC. rewrite Hd1 by exact HC. rewrite !demand_mid. f_equal. lia.
  - repeat split; cbn [rd_route rd_cost rd_demand].
    + rewrite R2. rewrite to_wrap by reflexivity. rewrite from_wrap_after by (unfold j; lia).
      unfold wrap. cbn [app]. now rewrite <- app_assoc.
    + rewrite K2, C2. reflexivity.
    + intros HC. rewrite if_set_spec by exact HC. rewrite Hd2 by exact HC. rewrite !demand_mid. f_equal. lia.
Qed.

Lemma do_2point_contract bd0 : 0 <= eps ->
  op_contract D (Forall2 (exact_rd D d C)) (nbr_2point D d C L eps r1 r2) [r1; r2] (start_delta bd0) eps (negb first)
    (do_2point_move eps rd1 rd2 D d C L first bd0).
Proof.
  intros Heps. rewrite do_2point_scan by exact Heps.
  pose proof (exact_dem _ _ _ _ _ H1) as Hd1. pose proof (exact_dem _ _ _ _ _ H2) as Hd2.
  assert (F : forall l1 b l2 m1 e m2, r1 = l1 ++ [b] ++ l2 -> r2 = m1 ++ [e] ++ m2 ->
     viol_C2 (S (length l1)) (S (length m1)) = false /\ viol_L2 (S (length l1)) (S (length m1)) = false <->
     feasible D d C L eps 0 (l1 ++ [e] ++ l2) /\ feasible D d C L eps 0 (m1 ++ [b] ++ m2)).
  { intros l1 b l2 m1 e m2 E1 E2. destruct (pieces_2pt l1 b l2 m1 e m2 E1 E2) as (Eb & Ee & K1 & K2 & _).
    unfold viol_C2, viol_L2, feasible. rewrite !orb_false_iff. rewrite <- !exceeds_within. rewrite Eb, Ee, K1, K2.
    rewrite (proj1 (proj2 H1)), (proj1 (proj2 H2)).
    rewrite (exceeds_ext C eps (odem rd1 - d b + d e) (demand d (l1 ++ [e] ++ l2))).
    2: { intros HC. rewrite Hd1 by exact HC. rewrite E1, !demand_mid. lia. }
    rewrite (exceeds_ext C eps (odem rd2 - d e + d b) (demand d (m1 ++ [b] ++ m2))).
    2: { intros HC. rewrite Hd2 by exact HC. rewrite E2, !demand_mid. lia. }
    tauto. }
  apply scan_op_contract; [exact Heps| |].
  - intros dl m Hin. apply in_cands_2pt in Hin. destruct Hin as (i & j & Hi & Hj & E1 & E2 & -> & ->).
    unfold route1, route2 in Hi, Hj. rewrite (proj1 H1) in Hi. rewrite (proj1 H2) in Hj.
    apply pos_customer in Hi. destruct Hi as (l1 & b & l2 & Er1 & ->).
    apply pos_customer in Hj. destruct Hj as (m1 & e & m2 & Er2 & ->).
    destruct (pieces_2pt l1 b l2 m1 e m2 Er1 Er2) as (Eb & Ee & K1 & K2 & X).
    exists [l1 ++ [e] ++ l2; m1 ++ [b] ++ m2]. split; [|split].
    + exists (l1 ++ [e] ++ l2), (m1 ++ [b] ++ m2). split; [reflexivity|]. split.
      * exists l1, b, l2, m1, e, m2. now repeat split.
      * apply (F l1 b l2 m1 e m2 Er1 Er2). now split.
    + rewrite !routes_cost2. lia.
    + exact X.
  - intros rs' (r1' & r2' & -> & (l1 & b & l2 & m1 & e & m2 & Er1 & Er2 & -> & ->) & Hf).
    destruct (pieces_2pt l1 b l2 m1 e m2 Er1 Er2) as (Eb & Ee & K1 & K2 & X).
    apply (F l1 b l2 m1 e m2 Er1 Er2) in Hf. destruct Hf as [F1 F2].
    eexists. eexists. split.
    + apply in_cands_2pt. exists (S (length l1)), (S (length m1)). split; [|split; [|split; [|split; [|split; reflexivity]]]].
      * unfold route1. rewrite (proj1 H1). apply pos_customer. now exists l1, b, l2.
      * unfold route2. rewrite (proj1 H2). apply pos_customer. now exists m1, e, m2.
      * exact F1.
      * exact F2.
    + rewrite !routes_cost2. lia.
Qed.
End TwoPoint.

(** ** Chain move *)
Section Chain.
Variables (eps : Z) (rd1 rd2 rd3 : routedata) (D : matrix) (d : demands) (C L : limit) (first : bool).
Let route1 := rd_route rd1.
Let route2 := rd_route rd2.
Let route3 := rd_route rd3.
Definition c_rem (i : nat) :=
  D (at_ route1 (i - 1)) (at_ route1 (i + 1)) - D (at_ route1 (i - 1)) (at_ route1 i) - D (at_ route1 i) (at_ route1 (i + 1)).
Definition c_rep (i j : nat) :=
  D (at_ route2 (j - 1)) (at_ route1 i) + D (at_ route1 i) (at_ route2 (j + 1))
  - D (at_ route2 (j - 1)) (at_ route2 j) - D (at_ route2 j) (at_ route2 (j + 1)).
Definition c_ins (j k : nat) :=
  D (at_ route3 (k - 1)) (at_ route2 j) + D (at_ route2 j) (at_ route3 k) - D (at_ route3 (k - 1)) (at_ route3 k).
Definition c_violC i j :=
  exceeds C 0 (odem rd2 - d (at_ route2 j) + d (at_ route1 i)) || exceeds C 0 (odem rd3 + d (at_ route2 j)).
Definition c_violL2 i j := exceeds L 0 (rd_cost rd2 + c_rep i j).
Definition c_violL3 j k := exceeds L 0 (rd_cost rd3 + c_ins j k).
Definition cands_ch : list (Z * (nat * nat * nat * Z * Z * Z)) :=
  flat_map (fun i => flat_map (fun j => if c_violC i j then [] else if c_violL2 i j then [] else
    flat_map (fun k => if c_violL3 j k then [] else
       [(c_rem i + c_rep i j + c_ins j k, (i, j, k, c_rem i, c_rep i j, c_ins j k))])
      (range 1 (length route3))) (range 1 (length route2 - 1))) (range 1 (length route1 - 1)).
Definition mk_ch (m : nat * nat * nat * Z * Z * Z) : list routedata :=
  let '(i, j, k, rem, rep, ins) := m in
  let to_move := at_ route1 i in
  let to_replace := at_ route2 j in
  [ mkrd (slice_to i route1 ++ slice_from (i + 1) route1) (rd_cost rd1 + rem) (if_set C (odem rd1 - d to_move));
    mkrd (slice_to j route2 ++ [to_move] ++ slice_from (j + 1) route2) (rd_cost rd2 + rep)
         (if_set C (odem rd2 - d to_replace + d to_move));
    mkrd (slice_to k route3 ++ [to_replace] ++ slice_from k route3) (rd_cost rd3 + ins)
         (if_set C (odem rd3 + d to_replace)) ].

Lemma in_cands_ch dl m : In (dl, m) cands_ch <->
  exists i j k, (1 <= i < length route1 - 1)%nat /\ (1 <= j < length route2 - 1)%nat /\ (1 <= k < length route3)%nat /\
    c_violC i j = false /\ c_violL2 i j = false /\ c_violL3 j k = false /\
    dl = c_rem i + c_rep i j + c_ins j k /\ m = (i, j, k, c_rem i, c_rep i j, c_ins j k).
Proof.
  unfold cands_ch. rewrite in_flat_map. split.
  - intros (i & Hi & H). rewrite in_range in Hi.
    rewrite in_flat_map in H. destruct H as (j & Hj & H). rewrite in_range in Hj.
    destruct (c_violC i j) eqn:E; [easy|]. destruct (c_violL2 i j) eqn:E2; [easy|].
    rewrite in_flat_map in H. destruct H as (k & Hk & H). rewrite in_range in Hk.
    destruct (c_violL3 j k) eqn:E3; [easy|]. destruct H as [H|[]].
    injection H as <- <-. exists i, j, k. repeat split; assumption || lia.
  - intros (i & j & k & Hi & Hj & Hk & E & E2 & E3 & -> & ->). exists i. rewrite in_range. split; [lia|].
    rewrite in_flat_map. exists j. rewrite in_range. split; [lia|]. rewrite E, E2.
    rewrite in_flat_map. exists k. rewrite in_range. split; [lia|]. rewrite E3. now left.
Qed.

Lemma do_chain_scan bd0 :
  do_chain_move eps rd1 rd2 rd3 D d C L first bd0 =
  match fst (scan eps first cands_ch (None, start_delta bd0)) with
  | (Some m, bd) => Some (mk_ch m, bd)
  | (None, _) => None
  end.
Proof.
  assert (E : for_break (range 1 (length route1 - 1)) (fun i s =>
      for_break (range 1 (length route2 - 1)) (fun j s =>
          if c_violC i j then (s, false) else if c_violL2 i j then (s, false)
          else for_break (range 1 (length route3)) (fun k s =>
             if c_violL3 j k then (s, false) else
             try_move eps first (c_rem i + c_rep i j + c_ins j k)
              (i, j, k, c_rem i, c_rep i j, c_ins j k) s) s) s)
      (None, start_delta bd0) = scan eps first cands_ch (None, start_delta bd0)).
  { unfold cands_ch. rewrite <- scan_flat. apply for_break_ext. intros i s _.
    rewrite <- scan_flat. apply for_break_ext. intros j s' _.
    destruct (c_violC i j); [reflexivity|]. destruct (c_violL2 i j); [reflexivity|].
    rewrite <- scan_flat. apply for_break_ext. intros k s'' _.
    destruct (c_violL3 j k); [reflexivity|]. symmetry. apply scan_one. }
  rewrite <- E. clear E.
  unfold do_chain_move. fold route1 route2 route3. cbv zeta.
  match goal with |- (let '(_, _) := for_break ?l ?b ?s in _) = match fst (for_break ?l' ?b' ?s') with _ => _ end =>
    change (for_break l' b' s') with (for_break l b s) end.
  match goal with |- context [for_break ?l ?b ?s] => destruct (for_break l b s) as [[[[[[[[i j] k] rem] rep] ins]|] bd] brk] end; reflexivity.
Qed.

Variables (r1 r2 r3 : list nat).
Hypotheses (H1 : exact_rd D d C r1 rd1) (H2 : exact_rd D d C r2 rd2) (H3 : exact_rd D d C r3 rd3).

Lemma pieces_ch l1 b l2 m1 e m2 n1 n2 : r1 = l1 ++ [b] ++ l2 -> r2 = m1 ++ [e] ++ m2 -> r3 = n1 ++ n2 ->
  let i := S (length l1) in let j := S (length m1) in let k := S (length n1) in
  at_ route1 i = b /\ at_ route2 j = e /\
  route_cost D (l1 ++ l2) = route_cost D r1 + c_rem i /\
  route_cost D (m1 ++ [b] ++ m2) = route_cost D r2 + c_rep i j /\
  route_cost D (n1 ++ [e] ++ n2) = route_cost D r3 + c_ins j k /\
  Forall2 (exact_rd D d C) [l1 ++ l2; m1 ++ [b] ++ m2; n1 ++ [e] ++ n2]
    (mk_ch (i, j, k, c_rem i, c_rep i j, c_ins j k)).
Proof.
  intros E1 E2 E3 i j k. subst r1 r2 r3.
  pose proof (exact_dem _ _ _ _ _ H1) as Hd1. pose proof (exact_dem _ _ _ _ _ H2) as Hd2.
  pose proof (exact_dem _ _ _ _ _ H3) as Hd3.
  destruct H1 as (R1 & C1 & _), H2 as (R2 & C2 & _), H3 as (R3 & C3 & _).
  fold route1 in R1. fold route2 in R2. fold route3 in R3.
  assert (Eb : at_ route1 i = b) by (rewrite R1; now apply at_wrap_mid).
  assert (Ee : at_ route2 j = e) by (rewrite R2; now apply at_wrap_mid).
  assert (K1 : route_cost D (l1 ++ l2) = route_cost D (l1 ++ [b] ++ l2) + c_rem i).
  { unfold c_rem. rewrite Eb, R1. rewrite (at_wrap_pre l1) by (unfold i; lia).
    rewrite at_wrap_after by (unfold i; lia). rewrite rc_mid, rc_split. lia. }
  assert (K2 : route_cost D (m1 ++ [b] ++ m2) = route_cost D (m1 ++ [e] ++ m2) + c_rep i j).
  { unfold c_rep. rewrite Eb, Ee, R2. rewrite (at_wrap_pre m1) by (unfold j; lia).
    rewrite at_wrap_after by (unfold j; lia). rewrite !rc_mid. lia. }
  assert (K3 : route_cost D (n1 ++ [e] ++ n2) = route_cost D (n1 ++ n2) + c_ins j k).
  { unfold c_ins. rewrite Ee, R3. rewrite (at_wrap_pre n1) by (unfold k; lia).
    rewrite at_wrap_suf by (unfold k; lia). rewrite rc_mid, rc_split. lia. }
  split; [exact Eb|]. split; [exact Ee|]. split; [exact K1|]. split; [exact K2|]. split; [exact K3|].
  unfold mk_ch. rewrite Eb, Ee. constructor; [|constructor; [|constructor; [|constructor]]];
    (split; [|split]); cbn [rd_route rd_cost rd_demand].
  - rewrite R1. rewrite to_wrap by reflexivity. rewrite from_wrap_after by (unfold i; lia).
    unfold wrap. cbn [app]. now rewrite <- app_assoc.
  - rewrite K1, C1. reflexivity.
  - intros HC. rewrite if_set_spec by exact HC. rewrite Hd1 by exact HC. rewrite demand_mid, demand_app. f_equal. lia.
  - rewrite R2. rewrite to_wrap by reflexivity. rewrite from_wrap_after by (unfold j; lia).
    unfold wrap. cbn [app]. now rewrite <- app_assoc.
  - rewrite K2, C2. reflexivity.
  - intros HC. rewrite if_set_spec by exact HC. rewrite Hd2 by exact HC. rewrite !demand_mid. f_equal. lia.
  - rewrite R3. rewrite to_wrap by reflexivity. rewrite from_wrap by (unfold k; lia).
    unfold wrap. cbn [app]. now rewrite <- app_assoc.
  - rewrite K3, C3. reflexivity.
  - intros HC. rewrite if_set_spec by exact HC. rewrite Hd3 by exact HC. rewrite demand_mid, demand_app. f_equal. lia.
Qed.

Lemma do_chain_contract bd0 : 0 <= eps ->
  op_contract D (Forall2 (exact_rd D d C)) (nbr_chain D d C L r1 r2 r3) [r1; r2; r3] (start_delta bd0) eps (negb first)
    (do_chain_move eps rd1 rd2 rd3 D d C L first bd0).
Proof.
  intros Heps. rewrite do_chain_scan.
  pose proof (exact_dem _ _ _ _ _ H2) as Hd2. pose proof (exact_dem _ _ _ _ _ H3) as Hd3.
  assert (F : forall l1 b l2 m1 e m2 n1 n2, r1 = l1 ++ [b] ++ l2 -> r2 = m1 ++ [e] ++ m2 -> r3 = n1 ++ n2 ->
     let i := S (length l1) in let j := S (length m1) in let k := S (length n1) in
     c_violC i j = false /\ c_violL2 i j = false /\ c_violL3 j k = false <->
     feasible D d C L 0 0 (m1 ++ [b] ++ m2) /\ feasible D d C L 0 0 (n1 ++ [e] ++ n2)).
  { intros l1 b l2 m1 e m2 n1 n2 E1 E2 E3 i j k.
    destruct (pieces_ch l1 b l2 m1 e m2 n1 n2 E1 E2 E3) as (Eb & Ee & K1 & K2 & K3 & _).
    fold i j k in Eb, Ee, K1, K2, K3.
    unfold c_violC, c_violL2, c_violL3, feasible. rewrite !orb_false_iff. rewrite <- !exceeds_within. rewrite Eb, Ee, K2, K3.
    rewrite (proj1 (proj2 H2)), (proj1 (proj2 H3)).
    rewrite (exceeds_ext C 0 (odem rd2 - d e + d b) (demand d (m1 ++ [b] ++ m2))).
    2: { intros HC. rewrite Hd2 by exact HC. rewrite E2, !demand_mid. lia. }
    rewrite (exceeds_ext C 0 (odem rd3 + d e) (demand d (n1 ++ [e] ++ n2))).
    2: { intros HC. rewrite Hd3 by exact HC. rewrite E3, demand_mid, demand_app. lia. }
    tauto. }
  apply scan_op_contract; [exact Heps| |].
  - intros dl m Hin. apply in_cands_ch in Hin. destruct Hin as (i & j & k & Hi & Hj & Hk & E1 & E2 & E3 & -> & ->).
    unfold route1, route2, route3 in Hi, Hj, Hk. rewrite (proj1 H1) in Hi. rewrite (proj1 H2) in Hj. rewrite (proj1 H3) in Hk.
    apply pos_customer in Hi. destruct Hi as (l1 & b & l2 & Er1 & ->).
    apply pos_customer in Hj. destruct Hj as (m1 & e & m2 & Er2 & ->).
    apply pos_gap in Hk. destruct Hk as (n1 & n2 & Er3 & ->).
    destruct (pieces_ch l1 b l2 m1 e m2 n1 n2 Er1 Er2 Er3) as (Eb & Ee & K1 & K2 & K3 & X).
    exists [l1 ++ l2; m1 ++ [b] ++ m2; n1 ++ [e] ++ n2]. split; [|split].
    + exists (l1 ++ l2), (m1 ++ [b] ++ m2), (n1 ++ [e] ++ n2). split; [reflexivity|]. split.
      * exists l1, b, l2, m1, e, m2, n1, n2. now repeat split.
      * apply (F l1 b l2 m1 e m2 n1 n2 Er1 Er2 Er3). now repeat split.
    + rewrite !routes_cost3. lia.
    + exact X.
  - intros rs' (r1' & r2' & r3' & -> & (l1 & b & l2 & m1 & e & m2 & n1 & n2 & Er1 & Er2 & Er3 & -> & -> & ->) & Hf).
    destruct (pieces_ch l1 b l2 m1 e m2 n1 n2 Er1 Er2 Er3) as (Eb & Ee & K1 & K2 & K3 & X).
    apply (F l1 b l2 m1 e m2 n1 n2 Er1 Er2 Er3) in Hf. destruct Hf as (F1 & F2 & F3).
    eexists. eexists. split.
    + apply in_cands_ch. exists (S (length l1)), (S (length m1)), (S (length n1)).
      split; [|split; [|split; [|split; [|split; [|split; [|split; reflexivity]]]]]].
      * unfold route1. rewrite (proj1 H1). apply pos_customer. now exists l1, b, l2.
      * unfold route2. rewrite (proj1 H2). apply pos_customer. now exists m1, e, m2.
      * unfold route3. rewrite (proj1 H3). apply pos_gap. now exists n1, n2.
      * exact F1.
      * exact F2.
      * exact F3.
    + rewrite !routes_cost3. lia.
Qed.
End Chain.

(** ** 2-opt* *)
Section TwoOptStar.
Variables (eps : Z) (rd1 rd2 : routedata) (D : matrix) (d : demands) (C L : limit) (first : bool).
Let route1 := rd_route rd1.
Let route2 := rd_route rd2.
Definition s_delta (alt : bool) i j :=
  let a := at_ route1 i in let b := at_ route1 (i + 1) in
  let c := at_ route2 j in let e := at_ route2 (j + 1) in
  if alt then D a c + D b e - D a b - D c e else D a e + D b c - D a b - D c e.
Definition s_nd1 (alt : bool) i j :=
  if alt then nthZ (fwd_d d route1) i + nthZ (fwd_d d route2) j
  else nthZ (fwd_d d route1) i + nthZ (rwd_d d route2) (j + 1).
Definition s_nd2 (alt : bool) i j :=
  if alt then nthZ (rwd_d d route1) (i + 1) + nthZ (rwd_d d route2) (j + 1)
  else nthZ (rwd_d d route1) (i + 1) + nthZ (fwd_d d route2) j.
Definition s_l1 (alt : bool) i j :=
  if alt then nthZ (fwd_l D route1) i + D (at_ route1 i) (at_ route2 j) + nthZ (fwd_l D route2) j
  else nthZ (fwd_l D route1) i + D (at_ route1 i) (at_ route2 (j + 1)) + nthZ (rwd_l D route2) (j + 1).
Definition s_l2 (alt : bool) i j :=
  if alt then nthZ (rwd_l D route1) (i + 1) + D (at_ route1 (i + 1)) (at_ route2 (j + 1)) + nthZ (rwd_l D route2) (j + 1)
  else nthZ (rwd_l D route1) (i + 1) + D (at_ route1 (i + 1)) (at_ route2 j) + nthZ (fwd_l D route2) j.
Definition s_viol alt i j :=
  (exceeds C eps (s_nd1 alt i j) || exceeds C eps (s_nd2 alt i j)) ||
  (exceeds L eps (s_l1 alt i j) || exceeds L eps (s_l2 alt i j)).
Definition s_rdelta (alt : bool) i j :=
  D (at_ route1 i) (at_ route2 (if alt then j else j + 1)) - D (at_ route1 i) (at_ route1 (i + 1)).
Definition s_move (alt : bool) (i j : nat) : bool * nat * nat * Z * option Z :=
  (alt, i, j, s_rdelta alt i j, if_set C (s_nd1 alt i j)).
Definition s_cand alt i j : list (Z * (bool * nat * nat * Z * option Z)) :=
  if s_viol alt i j then [] else [(s_delta alt i j, s_move alt i j)].
Definition cands_star :=
  flat_map (fun i => flat_map (fun j => s_cand true i j ++ s_cand false i j)
     (range 0 (length route2 - 1))) (range 0 (length route1 - 1)).
Definition mk_star (m : bool * nat * nat * Z * option Z) : list routedata :=
  let '(alt1, i, j, r1_delta, r1nd) := m in
  [ mkrd (slice_to (i + 1) route1 ++ (if alt1 then rslice_all j route2 else slice_from (j + 1) route2))
         (rd_cost rd1 + r1_delta) r1nd;
    mkrd (rslice_end i route1 ++ (if alt1 then slice_from (j + 1) route2 else rslice_all j route2))
         (rd_cost rd1 + r1_delta) r1nd ].

Lemma try_feasible_scan {M} delta viol (m : M) s :
  try_feasible eps first delta viol m s = scan eps first (if viol then [] else [(delta, m)]) s.
Proof.
  unfold try_feasible. destruct viol.
  - rewrite scan_nil. now destruct (delta + eps <? snd s).
  - rewrite scan_one. reflexivity.
Qed.

Lemma do_2optstar_scan bd0 :
  do_2optstar_move eps rd1 rd2 D d C L first bd0 =
  match fst (scan eps first cands_star (None, start_delta bd0)) with
  | (Some m, bd) => Some (mk_star m, bd)
  | (None, _) => None
  end.
Proof.
  assert (E : for_break (range 0 (length route1 - 1)) (fun i s =>
      for_break (range 0 (length route2 - 1)) (fun j s =>
         let '(s1, brk) := try_feasible eps first (s_delta true i j) (s_viol true i j) (s_move true i j) s in
         if brk then (s1, true)
         else try_feasible eps first (s_delta false i j) (s_viol false i j) (s_move false i j) s1) s)
      (None, start_delta bd0) = scan eps first cands_star (None, start_delta bd0)).
  { unfold cands_star. rewrite <- scan_flat. apply for_break_ext. intros i s _.
    rewrite <- scan_flat. apply for_break_ext. intros j s' _.
    rewrite scan_app. rewrite try_feasible_scan. fold (s_cand true i j).
    destruct (scan eps first (s_cand true i j) s') as [s1 []]; [reflexivity|].
    apply try_feasible_scan. }
  rewrite <- E. clear E.
  unfold do_2optstar_move. fold route1 route2. cbv zeta.
  match goal with |- (let '(_, _) := for_break ?l ?b ?s in _) = match fst (for_break ?l' ?b' ?s') with _ => _ end =>
    change (for_break l' b' s') with (for_break l b s) end.
  match goal with |- context [for_break ?l ?b ?s] => destruct (for_break l b s) as [[[[[[[alt i] j] rd] nd]|] bd] brk] end; reflexivity.
Qed.

Lemma in_cands_star dl m : In (dl, m) cands_star <->
  exists alt i j, (0 <= i < length route1 - 1)%nat /\ (0 <= j < length route2 - 1)%nat /\
    s_viol alt i j = false /\ dl = s_delta alt i j /\ m = s_move alt i j.
Proof.
  unfold cands_star. rewrite in_flat_map. split.
  - intros (i & Hi & H). rewrite in_range in Hi.
    rewrite in_flat_map in H. destruct H as (j & Hj & H). rewrite in_range in Hj.
    apply in_app_or in H. destruct H as [H|H]; [exists true|exists false]; exists i, j; unfold s_cand in H;
    (match type of H with In _ (if s_viol ?a i j then _ else _) => destruct (s_viol a i j) end; [easy|];
     destruct H as [H|[]]; injection H as <- <-; repeat split; assumption || lia).
  - intros (alt & i & j & Hi & Hj & E & -> & ->). exists i. rewrite in_range. split; [lia|].
    rewrite in_flat_map. exists j. rewrite in_range. split; [lia|]. apply in_or_app.
    destruct alt; [left|right]; unfold s_cand; rewrite E; now left.
Qed.

Variables (r1 r2 : list nat).
Hypotheses (R1 : rd_route rd1 = wrap r1) (R2 : rd_route rd2 = wrap r2).
Hypotheses (Hsym : symmetric D) (Hd0 : d 0%nat = 0).

Lemma aux_fwd_d p s : nthZ (fwd_d d (wrap (p ++ s))) (length p) = demand d p.
Proof.
  unfold nthZ. rewrite fwd_d_spec by (reflexivity || assumption || (rewrite wrap_length, app_length; lia)).
  change (firstn (length p + 1) (wrap (p ++ s))) with (slice_to (length p + 1) (wrap (p ++ s))).
  rewrite to_wrap by lia. rewrite demand_cons. lia.
Qed.
Lemma last_wrap r x : last (wrap r) x = 0%nat.
Proof. unfold wrap. change (0%nat :: r ++ [0%nat]) with ((0%nat :: r) ++ [0%nat]). apply last_last. Qed.
Lemma aux_rwd_d p s : nthZ (rwd_d d (wrap (p ++ s))) (length p + 1) = demand d s.
Proof.
  unfold nthZ. rewrite rwd_d_spec by (apply last_wrap || assumption || (rewrite wrap_length, app_length; lia)).
  change (skipn (length p + 1) (wrap (p ++ s))) with (slice_from (length p + 1) (wrap (p ++ s))).
  rewrite from_wrap by lia. rewrite demand_app, demand_cons, demand_nil. lia.
Qed.
Lemma aux_fwd_l p s : nthZ (fwd_l D (wrap (p ++ s))) (length p) = pre_cost D p.
Proof.
  unfold nthZ. rewrite fwd_l_spec by (reflexivity || (rewrite wrap_length, app_length; lia)).
  change (firstn (length p + 1) (wrap (p ++ s))) with (slice_to (length p + 1) (wrap (p ++ s))).
  now rewrite to_wrap by lia.
Qed.
Lemma aux_rwd_l p s : nthZ (rwd_l D (wrap (p ++ s))) (length p + 1) = suf_cost D s.
Proof.
  unfold nthZ. rewrite rwd_l_spec by (apply last_wrap || (rewrite wrap_length, app_length; lia)).
  change (skipn (length p + 1) (wrap (p ++ s))) with (slice_from (length p + 1) (wrap (p ++ s))).
  rewrite from_wrap by lia. now rewrite path_cost_rev.
Qed.

Definition star1 (alt : bool) (p1 s1 p2 s2 : list nat) := if alt then p1 ++ rev p2 else p1 ++ s2.
Definition star2 (alt : bool) (p1 s1 p2 s2 : list nat) := if alt then rev s1 ++ s2 else rev s1 ++ rev p2.

Lemma pieces_star alt p1 s1 p2 s2 : r1 = p1 ++ s1 -> r2 = p2 ++ s2 ->
  let i := length p1 in let j := length p2 in
  s_nd1 alt i j = demand d (star1 alt p1 s1 p2 s2) /\ s_nd2 alt i j = demand d (star2 alt p1 s1 p2 s2) /\
  s_l1 alt i j = route_cost D (star1 alt p1 s1 p2 s2) /\ s_l2 alt i j = route_cost D (star2 alt p1 s1 p2 s2) /\
  s_delta alt i j = route_cost D (star1 alt p1 s1 p2 s2) + route_cost D (star2 alt p1 s1 p2 s2)
                    - (route_cost D r1 + route_cost D r2) /\
  map rd_route (mk_star (s_move alt i j)) = map wrap [star1 alt p1 s1 p2 s2; star2 alt p1 s1 p2 s2].
Proof.
  intros -> -> i j. fold route1 in R1. fold route2 in R2.
  assert (Ea : at_ route1 i = last p1 0%nat) by (rewrite R1; now apply at_wrap_pre).
  assert (Eb : at_ route1 (i + 1) = hd 0%nat s1) by (rewrite R1; apply at_wrap_suf; unfold i; lia).
  assert (Ec : at_ route2 j = last p2 0%nat) by (rewrite R2; now apply at_wrap_pre).
  assert (Ee : at_ route2 (j + 1) = hd 0%nat s2) by (rewrite R2; apply at_wrap_suf; unfold j; lia).
  assert (A1 : nthZ (fwd_d d route1) i = demand d p1) by (rewrite R1; apply aux_fwd_d).
  assert (A2 : nthZ (fwd_d d route2) j = demand d p2) by (rewrite R2; apply aux_fwd_d).
  assert (A3 : nthZ (rwd_d d route1) (i + 1) = demand d s1) by (rewrite R1; apply aux_rwd_d).
  assert (A4 : nthZ (rwd_d d route2) (j + 1) = demand d s2) by (rewrite R2; apply aux_rwd_d).
  assert (B1 : nthZ (fwd_l D route1) i = pre_cost D p1) by (rewrite R1; apply aux_fwd_l).
  assert (B2 : nthZ (fwd_l D route2) j = pre_cost D p2) by (rewrite R2; apply aux_fwd_l).
  assert (B3 : nthZ (rwd_l D route1) (i + 1) = suf_cost D s1) by (rewrite R1; apply aux_rwd_l).
  assert (B4 : nthZ (rwd_l D route2) (j + 1) = suf_cost D s2) by (rewrite R2; apply aux_rwd_l).
  assert (S1 : slice_to (i + 1) route1 = 0%nat :: p1) by (rewrite R1; apply to_wrap; unfold i; lia).
  assert (S2 : rslice_all j route2 = rev p2 ++ [0%nat]).
  { unfold rslice_all. rewrite R2, to_wrap by (unfold j; lia). reflexivity. }
  assert (S3 : slice_from (j + 1) route2 = s2 ++ [0%nat]) by (rewrite R2; apply from_wrap; unfold j; lia).
  assert (S4 : rslice_end i route1 = 0%nat :: rev s1).
  { unfold rslice_end. rewrite R1, from_wrap by (unfold i; lia). now rewrite rev_app_distr. }
  unfold s_nd1, s_nd2, s_l1, s_l2, s_delta, s_move, mk_star, star1, star2. cbv zeta.
  rewrite ?Ea, ?Eb, ?Ec, ?Ee, ?A1, ?A2, ?A3, ?A4, ?B1, ?B2, ?B3, ?B4, ?S1, ?S2, ?S3, ?S4.
  cbn [map rd_route].
  destruct alt; rewrite !rc_split, ?hd_rev', ?last_rev', ?suf_rev, ?pre_rev, !demand_app, ?demand_rev by assumption;
    (repeat split; [lia..|]); unfold wrap; cbn [app]; now rewrite <- !app_assoc.
Qed.

Lemma do_2optstar_contract bd0 : 0 <= eps ->
  op_contract D routes_of (nbr_2optstar D d C L eps r1 r2) [r1; r2] (start_delta bd0) eps (negb first)
    (do_2optstar_move eps rd1 rd2 D d C L first bd0).
Proof.
  intros Heps. rewrite do_2optstar_scan.
  assert (F : forall alt p1 s1 p2 s2, r1 = p1 ++ s1 -> r2 = p2 ++ s2 ->
     s_viol alt (length p1) (length p2) = false <->
     feasible D d C L eps eps (star1 alt p1 s1 p2 s2) /\ feasible D d C L eps eps (star2 alt p1 s1 p2 s2)).
  { intros alt p1 s1 p2 s2 E1 E2. destruct (pieces_star alt p1 s1 p2 s2 E1 E2) as (K1 & K2 & K3 & K4 & _ & _).
    unfold s_viol, feasible. rewrite !orb_false_iff, <- !exceeds_within, K1, K2, K3, K4. tauto. }
  apply scan_op_contract; [exact Heps| |].
  - intros dl m Hin. apply in_cands_star in Hin. destruct Hin as (alt & i & j & Hi & Hj & E & -> & ->).
    unfold route1, route2 in Hi, Hj. rewrite R1 in Hi. rewrite R2 in Hj.
    apply pos_edge in Hi, Hj. destruct Hi as (p1 & s1 & Er1 & ->), Hj as (p2 & s2 & Er2 & ->).
    apply (F alt p1 s1 p2 s2 Er1 Er2) in E. destruct (pieces_star alt p1 s1 p2 s2 Er1 Er2) as (_ & _ & _ & _ & Kd & Kr).
    exists [star1 alt p1 s1 p2 s2; star2 alt p1 s1 p2 s2]. split; [|split].
    + exists (star1 alt p1 s1 p2 s2), (star2 alt p1 s1 p2 s2). split; [reflexivity|]. split; [|exact E].
      exists p1, s1, p2, s2. split; [exact Er1|]. split; [exact Er2|]. destruct alt; [left|right]; now split.
    + rewrite !routes_cost2. exact Kd.
    + exact Kr.
  - intros rs' (r1' & r2' & -> & (p1 & s1 & p2 & s2 & Er1 & Er2 & Halt) & Hf).
    assert (exists alt, r1' = star1 alt p1 s1 p2 s2 /\ r2' = star2 alt p1 s1 p2 s2) as (alt & -> & ->).
    { destruct Halt as [[-> ->]|[-> ->]]; [exists true|exists false]; now split. }
    destruct (pieces_star alt p1 s1 p2 s2 Er1 Er2) as (_ & _ & _ & _ & Kd & Kr).
    apply (F alt p1 s1 p2 s2 Er1 Er2) in Hf.
    eexists. eexists. split.
    + apply in_cands_star. exists alt, (length p1), (length p2). split; [|split; [|split; [|split; reflexivity]]].
      * unfold route1. rewrite R1. apply pos_edge. now exists p1, s1.
      * unfold route2. rewrite R2. apply pos_edge. now exists p2, s2.
      * exact Hf.
    + rewrite !routes_cost2. exact Kd.
Qed.
End TwoOptStar.

(** ** Moves keep the customers *)
Lemma count_occ_rev (l : list nat) x : count_occ Nat.eq_dec (rev l) x = count_occ Nat.eq_dec l x.
Proof.
  induction l as [|y l IH]; [reflexivity|]. cbn [rev]. rewrite count_occ_app. cbn [count_occ].
  destruct (Nat.eq_dec y x); lia.
Qed.
Ltac perm := apply (Permutation_count_occ Nat.eq_dec); let x := fresh "x" in intro x;
  rewrite ?concat_app; cbn [app concat rev]; rewrite ?count_occ_app, ?count_occ_rev; cbn [count_occ];
  rewrite ?count_occ_app, ?count_occ_rev; cbn [count_occ];
  repeat match goal with |- context [Nat.eq_dec ?a ?b] => destruct (Nat.eq_dec a b) end; lia.

Lemma one_point_customers r1 r2 r1' r2' : one_point_move r1 r2 r1' r2' -> Permutation (r1 ++ r2) (r1' ++ r2').
Proof. intros (l1 & b & l2 & m1 & m2 & -> & -> & -> & ->). perm. Qed.
Lemma two_point_customers r1 r2 r1' r2' : two_point_move r1 r2 r1' r2' -> Permutation (r1 ++ r2) (r1' ++ r2').
Proof. intros (l1 & b & l2 & m1 & e & m2 & -> & -> & -> & ->). perm. Qed.
Lemma chain_customers r1 r2 r3 r1' r2' r3' : chain_move r1 r2 r3 r1' r2' r3' ->
  Permutation (r1 ++ r2 ++ r3) (r1' ++ r2' ++ r3').
Proof. intros (l1 & b & l2 & m1 & e & m2 & n1 & n2 & -> & -> & -> & -> & -> & ->). perm. Qed.
Lemma star_customers r1 r2 r1' r2' : two_opt_star_move r1 r2 r1' r2' -> Permutation (r1 ++ r2) (r1' ++ r2').
Proof. intros (p1 & s1 & p2 & s2 & -> & -> & [[-> ->]|[-> ->]]); perm. Qed.

(** ** Feasibility *)
Lemma within_mono lim eps eps' x y : y <= x -> eps <= eps' -> within lim eps x -> within lim eps' y.
Proof. unfold within. destruct lim; [|easy]. intros. lia. Qed.

Lemma remove_shorter D l1 b l2 : triangle D -> route_cost D (l1 ++ l2) <= route_cost D (l1 ++ [b] ++ l2).
Proof. intros HT. rewrite rc_mid, rc_split. pose proof (HT (last l1 0%nat) b (hd 0%nat l2)). lia. Qed.

Lemma remove_lighter d l1 b l2 : 0 <= d b -> demand d (l1 ++ l2) <= demand d (l1 ++ [b] ++ l2).
Proof. intros. rewrite demand_mid, demand_app. lia. Qed.

Lemma remove_feasible D d C L eC eL l1 b l2 : triangle D -> 0 <= d b ->
  feasible D d C L eC eL (l1 ++ [b] ++ l2) -> feasible D d C L eC eL (l1 ++ l2).
Proof.
  intros HT Hb [HC HL]. split.
  - apply (within_mono C eC eC _ _ (remove_lighter d l1 b l2 Hb)); [lia|exact HC].
  - apply (within_mono L eL eL _ _ (remove_shorter D l1 b l2 HT)); [lia|exact HL].
Qed.

Lemma feasible_weaken D d C L eC eL eC' eL' r : eC <= eC' -> eL <= eL' ->
  feasible D d C L eC eL r -> feasible D d C L eC' eL' r.
Proof. intros HC HL [H1 H2]. split; eapply within_mono; eauto; lia. Qed.

Lemma one_point_feasible D d C L eps r1 r2 rs : triangle D -> (forall n, 0 <= d n) ->
  feasible D d C L eps eps r1 -> nbr_1point D d C L eps r1 r2 rs -> Forall (feasible D d C L eps eps) rs.
Proof.
  intros HT Hd HF (r1' & r2' & -> & (l1 & b & l2 & m1 & m2 & -> & -> & -> & ->) & HF2).
  constructor; [|constructor; [exact HF2|constructor]].
  apply (remove_feasible D d C L eps eps l1 b l2 HT (Hd b) HF).
Qed.
Lemma two_point_feasible D d C L eps r1 r2 rs : 0 <= eps ->
  nbr_2point D d C L eps r1 r2 rs -> Forall (feasible D d C L eps eps) rs.
Proof.
  intros He (r1' & r2' & -> & _ & H1 & H2).
  constructor; [|constructor; [|constructor]];
  [apply (feasible_weaken D d C L eps 0 eps eps r1')|apply (feasible_weaken D d C L eps 0 eps eps r2')]; assumption || lia.
Qed.
Lemma star_feasible D d C L eps r1 r2 rs :
  nbr_2optstar D d C L eps r1 r2 rs -> Forall (feasible D d C L eps eps) rs.
Proof. intros (r1' & r2' & -> & _ & H1 & H2). constructor; [exact H1|]. constructor; [exact H2|constructor]. Qed.
Lemma chain_feasible D d C L eps r1 r2 r3 rs : 0 <= eps -> triangle D -> (forall n, 0 <= d n) ->
  feasible D d C L eps eps r1 -> nbr_chain D d C L r1 r2 r3 rs -> Forall (feasible D d C L eps eps) rs.
Proof.
  intros He HT Hd HF (r1' & r2' & r3' & -> & (l1 & b & l2 & m1 & e & m2 & n1 & n2 & -> & -> & -> & -> & -> & ->) & H2 & H3).
  constructor; [|constructor; [|constructor; [|constructor]]].
  - apply (remove_feasible D d C L eps eps l1 b l2 HT (Hd b) HF).
  - apply (feasible_weaken D d C L 0 0 eps eps); assumption || lia.
  - apply (feasible_weaken D d C L 0 0 eps eps); assumption || lia.
Qed.
