(** * Proofs about the inter-route operators *)
From Verif Require Import Spec Spec_ls Spec_inter PyBase M_util M_routedata M_intra M_inter
     P_base P_cvrp P_rd P_scan P_intra P_intra2.
From Coq Require Import ZifyBool ZifyNat.

(** ** Routes with depots, cut at a position *)
Definition pre_cost (D : matrix) (l : list nat) : Z := path_cost D (0%nat :: l).
Definition suf_cost (D : matrix) (l : list nat) : Z := path_cost D (l ++ [0%nat]).

Lemma last_cons0 (l : list nat) : last (0%nat :: l) 0%nat = last l 0%nat.
Proof. now destruct l. Qed.
Lemma hd_snoc0 (l : list nat) : hd 0%nat (l ++ [0%nat]) = hd 0%nat l.
Proof. now destruct l. Qed.

Lemma rc_split D l1 l2 : route_cost D (l1 ++ l2) =
  pre_cost D l1 + D (last l1 0%nat) (hd 0%nat l2) + suf_cost D l2.
Proof.
  unfold route_cost, pre_cost, suf_cost. rewrite <- app_assoc.
  change (0%nat :: l1 ++ l2 ++ [0%nat]) with ((0%nat :: l1) ++ (l2 ++ [0%nat])).
  rewrite path_cost_app by ne. now rewrite last_cons0, hd_snoc0.
Qed.
Lemma pre_snoc D l b : pre_cost D (l ++ [b]) = pre_cost D l + D (last l 0%nat) b.
Proof.
  unfold pre_cost. change (0%nat :: l ++ [b]) with ((0%nat :: l) ++ [b]).
  rewrite path_cost_app by ne. rewrite last_cons0, path_cost_one. cbn [hd]. lia.
Qed.
Lemma suf_cons D b l : suf_cost D (b :: l) = D b (hd 0%nat l) + suf_cost D l.
Proof.
  unfold suf_cost. change ((b :: l) ++ [0%nat]) with ([b] ++ (l ++ [0%nat])).
  rewrite path_cost_app by ne. rewrite hd_snoc0, path_cost_one. cbn [last]. lia.
Qed.
Lemma rc_mid D l1 b l2 : route_cost D (l1 ++ [b] ++ l2) =
  pre_cost D l1 + D (last l1 0%nat) b + D b (hd 0%nat l2) + suf_cost D l2.
Proof. rewrite rc_split. cbn [app hd]. rewrite suf_cons. lia. Qed.
Lemma suf_rev D l : symmetric D -> suf_cost D (rev l) = pre_cost D l.
Proof.
  intros Hs. unfold suf_cost, pre_cost. rewrite <- (path_cost_rev D (rev l ++ [0%nat])) by exact Hs.
  now rewrite rev_app_distr, rev_involutive.
Qed.
Lemma pre_rev D l : symmetric D -> pre_cost D (rev l) = suf_cost D l.
Proof. intros Hs. rewrite <- (suf_rev D (rev l)) by exact Hs. now rewrite rev_involutive. Qed.
Lemma last_rev' (l : list nat) : last (rev l) 0%nat = hd 0%nat l.
Proof. destruct l; [reflexivity|]. now apply last_rev0. Qed.
Lemma hd_rev' (l : list nat) : hd 0%nat (rev l) = last l 0%nat.
Proof. destruct l; [reflexivity|]. now apply hd_rev0. Qed.

Lemma wrap_split l1 l2 : wrap (l1 ++ l2) = (0%nat :: l1) ++ (l2 ++ [0%nat]).
Proof. unfold wrap. cbn [app]. now rewrite <- app_assoc. Qed.
Lemma wrap_length r : length (wrap r) = (length r + 2)%nat.
Proof. unfold wrap. cbn [length]. rewrite app_length. cbn [length]. lia. Qed.
Lemma wrap_inj r r' : wrap r = wrap r' -> r = r'.
Proof. unfold wrap. intros H. injection H as H. now apply app_inj_tail in H. Qed.
Lemma at_wrap_pre l1 l2 n : n = length l1 -> at_ (wrap (l1 ++ l2)) n = last l1 0%nat.
Proof. intros ->. rewrite wrap_split, at_last by (ne || reflexivity). apply last_cons0. Qed.
Lemma at_wrap_suf l1 l2 n : n = S (length l1) -> at_ (wrap (l1 ++ l2)) n = hd 0%nat l2.
Proof. intros ->. rewrite wrap_split, at_hd by reflexivity. apply hd_snoc0. Qed.
Lemma to_wrap l1 l2 n : n = S (length l1) -> slice_to n (wrap (l1 ++ l2)) = 0%nat :: l1.
Proof. intros ->. rewrite wrap_split. now apply slice_to_app. Qed.
Lemma from_wrap l1 l2 n : n = S (length l1) -> slice_from n (wrap (l1 ++ l2)) = l2 ++ [0%nat].
Proof. intros ->. rewrite wrap_split. now apply slice_from_app. Qed.
Lemma at_wrap_mid l1 b l2 n : n = S (length l1) -> at_ (wrap (l1 ++ [b] ++ l2)) n = b.
Proof. intros ->. now rewrite at_wrap_suf. Qed.
Lemma at_wrap_after l1 b l2 n : n = S (S (length l1)) -> at_ (wrap (l1 ++ [b] ++ l2)) n = hd 0%nat l2.
Proof.
  intros ->. rewrite app_assoc. apply at_wrap_suf. rewrite app_length. cbn [length]. lia.
Qed.
Lemma from_wrap_after l1 b l2 n : n = S (S (length l1)) ->
  slice_from n (wrap (l1 ++ [b] ++ l2)) = l2 ++ [0%nat].
Proof. intros ->. rewrite app_assoc. apply from_wrap. rewrite app_length. cbn [length]. lia. Qed.

(** Positions of the loops. *)
Lemma pos_customer r i : (1 <= i < length (wrap r) - 1)%nat <->
  exists l1 b l2, r = l1 ++ [b] ++ l2 /\ i = S (length l1).
Proof.
  rewrite wrap_length. split.
  - intros H. destruct (split_at r (i - 1)) as (l1 & q & -> & Hl); [lia|]. rewrite app_length in H.
    destruct q as [|b l2]; [cbn in H; lia|]. exists l1, b, l2. split; [reflexivity|lia].
  - intros (l1 & b & l2 & -> & ->). rewrite !app_length. cbn [length]. lia.
Qed.
Lemma pos_gap r j : (1 <= j < length (wrap r))%nat <-> exists m1 m2, r = m1 ++ m2 /\ j = S (length m1).
Proof.
  rewrite wrap_length. split.
  - intros H. destruct (split_at r (j - 1)) as (m1 & m2 & -> & Hl); [lia|]. exists m1, m2. split; [reflexivity|lia].
  - intros (m1 & m2 & -> & ->). rewrite !app_length. lia.
Qed.
Lemma pos_edge r i : (0 <= i < length (wrap r) - 1)%nat <-> exists p s, r = p ++ s /\ i = length p.
Proof.
  rewrite wrap_length. split.
  - intros H. destruct (split_at r i) as (m1 & m2 & -> & Hl); [lia|]. exists m1, m2. split; [reflexivity|lia].
  - intros (m1 & m2 & -> & ->). rewrite !app_length. lia.
Qed.

Lemma routes_cost2 D r1 r2 : routes_cost D [r1; r2] = route_cost D r1 + route_cost D r2.
Proof. unfold routes_cost. cbn. lia. Qed.
Lemma routes_cost3 D r1 r2 r3 : routes_cost D [r1; r2; r3] = route_cost D r1 + route_cost D r2 + route_cost D r3.
Proof. unfold routes_cost. cbn. lia. Qed.

Lemma if_set_spec C x : limit_set C -> if_set C x = Some x.
Proof.
  unfold limit_set, if_set, truthy. destruct C as [c|]; [|easy]. intros H.
  destruct (Z.eqb_spec c 0); [easy|reflexivity].
Qed.
Lemma exceeds_ext C eps x y : (limit_set C -> x = y) -> exceeds C eps x = exceeds C eps y.
Proof.
  unfold limit_set, exceeds, truthy. destruct C as [c|]; [|reflexivity].
  destruct (Z.eqb_spec c 0); [reflexivity|]. intros H. now rewrite H.
Qed.
Lemma exact_dem D d C r rd : exact_rd D d C r rd -> limit_set C -> odem rd = demand d r.
Proof. intros (_ & _ & H) Hc. unfold odem. now rewrite (H Hc). Qed.

Lemma demand_mid d l1 b l2 : demand d (l1 ++ [b] ++ l2) = demand d l1 + d b + demand d l2.
Proof. rewrite !demand_app, demand_cons, demand_nil. lia. Qed.

(** From a scan over candidates to the contract. *)
Lemma scan_op_contract {M} (eps : Z) (first : bool) (cands : list (Z * M)) (b0 : Z) (D : matrix)
      (rel : list (list nat) -> list routedata -> Prop) (nbr : list (list nat) -> Prop)
      (rs : list (list nat)) (mk : M -> list routedata) :
  0 <= eps ->
  (forall dl m, In (dl, m) cands -> exists rs', nbr rs' /\ dl = routes_cost D rs' - routes_cost D rs /\ rel rs' (mk m)) ->
  (forall rs', nbr rs' -> exists dl m, In (dl, m) cands /\ dl = routes_cost D rs' - routes_cost D rs) ->
  op_contract D rel nbr rs b0 eps (negb first)
    (match fst (scan eps first cands (None, b0)) with
     | (Some m, bd) => Some (mk m, bd)
     | (None, _) => None
     end).
Proof.
  intros Heps Hs Hc. pose proof (scan_spec eps first cands b0 Heps) as H.
  destruct (fst (scan eps first cands (None, b0))) as [[m|] bd]; unfold scan_post in H; cbn [fst snd] in H.
  - destruct H as (H1 & H2 & H3 & _). destruct (Hs _ _ H1) as (rs' & Hn & Hd & Hr).
    exists (Some (rs', bd)). split; [|now split]. cbn.
    repeat split; [exact Hn|exact Hd|exact H2|].
    intros Hb r Hr'. destruct (Hc r Hr') as (dl & m' & Hin & ->).
    refine (H3 _ _ _ Hin). now destruct first.
  - destruct H as (_ & H). exists None. split; [|exact I]. cbn. intros r Hr.
    destruct (Hc r Hr) as (dl & m' & Hin & ->). apply (H _ _ Hin).
Qed.

(** ** 1-point move *)
Section OnePoint.
Variables (eps : Z) (rd1 rd2 : routedata) (D : matrix) (d : demands) (C L : limit) (first : bool).
Let route1 := rd_route rd1.
Let route2 := rd_route rd2.
Definition rem_delta (i : nat) :=
  D (at_ route1 (i - 1)) (at_ route1 (i + 1)) - D (at_ route1 (i - 1)) (at_ route1 i) - D (at_ route1 i) (at_ route1 (i + 1)).
Definition ins_delta (i j : nat) :=
  D (at_ route2 (j - 1)) (at_ route1 i) + D (at_ route1 i) (at_ route2 j) - D (at_ route2 (j - 1)) (at_ route2 j).
Definition cands_1pt : list (Z * (nat * nat * Z * Z)) :=
  flat_map (fun i => if exceeds C eps (odem rd2 + d (at_ route1 i)) then [] else
    flat_map (fun j => if exceeds L eps (rd_cost rd2 + ins_delta i j) then []
       else [(rem_delta i + ins_delta i j, (i, j, rem_delta i, ins_delta i j))])
      (range 1 (length route2))) (range 1 (length route1 - 1)).
Definition mk_1pt (m : nat * nat * Z * Z) : list routedata :=
  let '(i, j, rem, ins) := m in
  let to_move := at_ route1 i in
  [ mkrd (slice_to i route1 ++ slice_from (i + 1) route1) (rd_cost rd1 + rem) (if_set C (odem rd1 - d to_move));
    mkrd (slice_to j route2 ++ [to_move] ++ slice_from j route2) (rd_cost rd2 + ins) (if_set C (odem rd2 + d to_move)) ].

Lemma in_cands_1pt dl m : In (dl, m) cands_1pt <->
  exists i j, (1 <= i < length route1 - 1)%nat /\ (1 <= j < length route2)%nat /\
    exceeds C eps (odem rd2 + d (at_ route1 i)) = false /\
    exceeds L eps (rd_cost rd2 + ins_delta i j) = false /\
    dl = rem_delta i + ins_delta i j /\ m = (i, j, rem_delta i, ins_delta i j).
Proof.
  unfold cands_1pt. rewrite in_flat_map. split.
  - intros (i & Hi & H). rewrite in_range in Hi.
    destruct (exceeds C eps (odem rd2 + d (at_ route1 i))) eqn:E; [easy|].
    rewrite in_flat_map in H. destruct H as (j & Hj & H). rewrite in_range in Hj.
    destruct (exceeds L eps (rd_cost rd2 + ins_delta i j)) eqn:E2; [easy|]. destruct H as [H|[]].
    injection H as <- <-. exists i, j. repeat split; assumption || lia.
  - intros (i & j & Hi & Hj & E & E2 & -> & ->). exists i. rewrite in_range. split; [lia|]. rewrite E.
    rewrite in_flat_map. exists j. rewrite in_range. split; [lia|]. rewrite E2. now left.
Qed.

Lemma do_1point_scan bd0 : 0 <= eps ->
  do_1point_move eps rd1 rd2 D d C L first bd0 =
  match fst (scan eps first cands_1pt (None, start_delta bd0)) with
  | (Some m, bd) => Some (mk_1pt m, bd)
  | (None, _) => None
  end.
Proof.
  intros Heps.
  assert (E : for_break (range 1 (length route1 - 1)) (fun i s =>
      if exceeds C eps (odem rd2 + d (at_ route1 i)) then (s, false)
      else for_break (range 1 (length route2)) (fun j s =>
          if exceeds L eps (rd_cost rd2 + ins_delta i j) then (s, false)
          else try_move eps first (rem_delta i + ins_delta i j) (i, j, rem_delta i, ins_delta i j) s) s)
      (None, start_delta bd0) = scan eps first cands_1pt (None, start_delta bd0)).
  { unfold cands_1pt. rewrite <- scan_flat. apply for_break_ext. intros i s _.
    destruct (exceeds C eps (odem rd2 + d (at_ route1 i))); [reflexivity|].
    rewrite <- scan_flat. apply for_break_ext. intros j s' _.
    destruct (exceeds L eps (rd_cost rd2 + ins_delta i j)); [reflexivity|]. symmetry. apply scan_one. }
  pose proof (scan_spec eps first cands_1pt (start_delta bd0) Heps) as HS.
  rewrite <- E in HS |- *. clear E.
  unfold do_1point_move. fold route1 route2. cbv zeta.
  match goal with |- context [for_break ?l ?b ?s] =>
    match type of HS with context [for_break ?l' ?b' ?s'] => change (for_break l' b' s') with (for_break l b s) in *  end end.
  match goal with |- context [for_break ?l ?b ?s] => destruct (for_break l b s) as [[[[[[i j] rem] ins]|] bd] brk] end; [|reflexivity].
  cbn [fst] in *. unfold mk_1pt. cbv zeta. do 2 f_equal.
  unfold scan_post in HS. cbn [fst snd] in HS. destruct HS as (Hin & _).
  apply in_cands_1pt in Hin. destruct Hin as (i' & j' & _ & _ & _ & _ & -> & Em).
  injection Em as -> -> -> ->. reflexivity.
Qed.

Variables (r1 r2 : list nat).
Hypotheses (H1 : exact_rd D d C r1 rd1) (H2 : exact_rd D d C r2 rd2).

Lemma pieces_1pt l1 b l2 m1 m2 : r1 = l1 ++ [b] ++ l2 -> r2 = m1 ++ m2 ->
  let i := S (length l1) in let j := S (length m1) in
  at_ route1 i = b /\
  route_cost D (l1 ++ l2) = route_cost D r1 + rem_delta i /\
  route_cost D (m1 ++ [b] ++ m2) = route_cost D r2 + ins_delta i j /\
  exact_rd D d C (l1 ++ l2) (nth 0 (mk_1pt (i, j, rem_delta i, ins_delta i j)) empty_rd) /\
  exact_rd D d C (m1 ++ [b] ++ m2) (nth 1 (mk_1pt (i, j, rem_delta i, ins_delta i j)) empty_rd).
Proof.
  intros E1 E2 i j. subst r1 r2.
  pose proof (exact_dem _ _ _ _ _ H1) as Hd1. pose proof (exact_dem _ _ _ _ _ H2) as Hd2.
  destruct H1 as (R1 & C1 & _), H2 as (R2 & C2 & _). fold route1 in R1. fold route2 in R2.
  assert (Eb : at_ route1 i = b) by (rewrite R1; now apply at_wrap_mid).
  assert (Erem : rem_delta i = D (last l1 0%nat) (hd 0%nat l2) - D (last l1 0%nat) b - D b (hd 0%nat l2)).
  { unfold rem_delta. rewrite Eb, R1. rewrite (at_wrap_pre l1) by (unfold i; lia).
    rewrite at_wrap_after by (unfold i; lia). reflexivity. }
  assert (Eins : ins_delta i j = D (last m1 0%nat) b + D b (hd 0%nat m2) - D (last m1 0%nat) (hd 0%nat m2)).
  { unfold ins_delta. rewrite Eb, R2. rewrite (at_wrap_pre m1) by (unfold j; lia).
    rewrite at_wrap_suf by (unfold j; lia). reflexivity. }
  assert (K1 : route_cost D (l1 ++ l2) = route_cost D (l1 ++ [b] ++ l2) + rem_delta i).
  { rewrite Erem, rc_mid, rc_split. lia. }
  assert (K2 : route_cost D (m1 ++ [b] ++ m2) = route_cost D (m1 ++ m2) + ins_delta i j).
  { rewrite Eins, rc_mid, rc_split. lia. }
  repeat split; try assumption; cbn [nth mk_1pt rd_route rd_cost rd_demand].
  - rewrite R1. rewrite to_wrap by reflexivity. rewrite from_wrap_after by (unfold i; lia).
    unfold wrap. cbn [app]. now rewrite <- app_assoc.
  - rewrite K1, C1. reflexivity.
  - intros HC. rewrite if_set_spec by exact HC. rewrite Hd1, Eb by exact HC. rewrite demand_mid, demand_app. f_equal. lia.
  - rewrite Eb, R2. rewrite to_wrap by reflexivity. rewrite from_wrap by reflexivity.
    unfold wrap. cbn [app]. now rewrite <- app_assoc.
  - rewrite K2, C2. reflexivity.
  - intros HC. rewrite if_set_spec by exact HC. rewrite Hd2, Eb by exact HC. rewrite demand_mid, demand_app. f_equal. lia.
Qed.

Lemma do_1point_contract bd0 : 0 <= eps ->
  op_contract D (Forall2 (exact_rd D d C)) (nbr_1point D d C L eps r1 r2) [r1; r2] (start_delta bd0) eps (negb first)
    (do_1point_move eps rd1 rd2 D d C L first bd0).
Proof.
  intros Heps. rewrite do_1point_scan by exact Heps.
  pose proof (exact_dem _ _ _ _ _ H2) as Hd2.
  assert (F : forall l1 b l2 m1 m2, r1 = l1 ++ [b] ++ l2 -> r2 = m1 ++ m2 ->
     exceeds C eps (odem rd2 + d b) = false /\
     exceeds L eps (rd_cost rd2 + ins_delta (S (length l1)) (S (length m1))) = false <->
     feasible D d C L eps eps (m1 ++ [b] ++ m2)).
  { intros l1 b l2 m1 m2 E1 E2. destruct (pieces_1pt l1 b l2 m1 m2 E1 E2) as (_ & _ & K2 & _).
    destruct H2 as (_ & C2 & _). unfold feasible. rewrite <- !exceeds_within. rewrite K2, C2.
    rewrite (exceeds_ext C eps (odem rd2 + d b) (demand d (m1 ++ [b] ++ m2))); [reflexivity|].
    intros HC. rewrite Hd2 by exact HC. rewrite E2, demand_mid, demand_app. lia. }
  apply scan_op_contract; [exact Heps| |].
  - intros dl m Hin. apply in_cands_1pt in Hin. destruct Hin as (i & j & Hi & Hj & E1 & E2 & -> & ->).
    unfold route1, route2 in Hi, Hj. rewrite (proj1 H1) in Hi. rewrite (proj1 H2) in Hj.
    apply pos_customer in Hi. destruct Hi as (l1 & b & l2 & Er1 & ->).
    apply pos_gap in Hj. destruct Hj as (m1 & m2 & Er2 & ->).
    destruct (pieces_1pt l1 b l2 m1 m2 Er1 Er2) as (Eb & K1 & K2 & X1 & X2).
    exists [l1 ++ l2; m1 ++ [b] ++ m2]. split; [|split].
    + exists (l1 ++ l2), (m1 ++ [b] ++ m2). split; [reflexivity|]. split.
      * exists l1, b, l2, m1, m2. now repeat split.
      * apply (F l1 b l2 m1 m2 Er1 Er2). rewrite Eb in E1. now split.
    + rewrite !routes_cost2. lia.
    + constructor; [exact X1|]. constructor; [exact X2|constructor].
  - intros rs' (r1' & r2' & -> & (l1 & b & l2 & m1 & m2 & Er1 & Er2 & -> & ->) & Hf).
    destruct (pieces_1pt l1 b l2 m1 m2 Er1 Er2) as (Eb & K1 & K2 & X1 & X2).
    apply (F l1 b l2 m1 m2 Er1 Er2) in Hf. destruct Hf as [F1 F2].
    eexists. eexists. split.
    + apply in_cands_1pt. exists (S (length l1)), (S (length m1)). split; [|split; [|split; [|split; [|split; reflexivity]]]].
      * unfold route1. rewrite (proj1 H1). apply pos_customer. now exists l1, b, l2.
      * unfold route2. rewrite (proj1 H2). apply pos_gap. now exists m1, m2.
      * rewrite Eb. exact F1.
      * exact F2.
    + rewrite !routes_cost2. lia.
Qed.
End OnePoint.
