(** * Proofs about where the sweeps of Wren and Holliday's heuristic start *)
From Coq Require Import ZifyBool Lia.
From Verif Require Import Spec PyBase P_base M_util M_sweep M_polar Spec_polar P_polar M_whstart Spec_whstart.

(** The angles are those of the rays *)
Lemma tgt_ray_zero i : angle_tgt (0, 0) i = angle_tgt (1, 0) i.
Proof. reflexivity. Qed.

Definition same_angle (a : fraction) (v : Z * Z) : Prop :=
  v <> (0, 0) /\ a = snd (cart2pol (fst v) (snd v)).

Lemma tgt_ray0 m : m <> (0, 0) -> same_angle (angle_tgt m 0) (ray m 0).
Proof.
  destruct m as [x y]. intros H. assert (Hn : ~ (x = 0 /\ y = 0)) by (intros [-> ->]; now apply H).
  split; [intros E; apply H; injection E; intros; f_equal; lia|].
  cbn [ray fst snd]. unfold angle_tgt, cart2pol. cbn [fst snd Z.of_nat].
  destruct ((x =? 0) && (y =? 0)) eqn:E0; [lia|]. destruct ((- x =? 0) && (- y =? 0)) eqn:E1; [lia|].
  rewrite !Z.abs_opp.
  destruct (0 <=? x) eqn:Ex; [|destruct (0 <=? y) eqn:Ey]; cbn [snd];
    (destruct (0 <=? - x) eqn:Ex'; [|destruct (0 <=? - y) eqn:Ey']; cbn [snd]);
    match goal with |- context [0 <? ?n] => destruct (0 <? n) eqn:En end;
    match goal with |- context [2 * ?s <? ?t] => destruct (2 * s <? t) eqn:Et end;
    f_equal; lia.
Qed.

Lemma turn_angle a v : same_angle a v ->
  same_angle (if 2 * snd a <? fst a + snd a then fst a + snd a - 4 * snd a else fst a + snd a, snd a) (quarter_turn v)
  /\ - 2 * snd a < fst a <= 2 * snd a.
Proof.
  destruct v as [x y]. intros [Hv Ha]. assert (Hn : ~ (x = 0 /\ y = 0)) by (intros [-> ->]; now apply Hv).
  cbn [fst snd] in Ha. subst a.
  assert (H : snd (cart2pol (- y) x) = (if 2 * snd (snd (cart2pol x y)) <? fst (snd (cart2pol x y)) + snd (snd (cart2pol x y))
     then fst (snd (cart2pol x y)) + snd (snd (cart2pol x y)) - 4 * snd (snd (cart2pol x y))
     else fst (snd (cart2pol x y)) + snd (snd (cart2pol x y)), snd (snd (cart2pol x y)))
    /\ - 2 * snd (snd (cart2pol x y)) < fst (snd (cart2pol x y)) <= 2 * snd (snd (cart2pol x y))).
  { unfold cart2pol. cbn [fst snd].
    destruct ((x =? 0) && (y =? 0)) eqn:E0; [lia|]. destruct ((- y =? 0) && (x =? 0)) eqn:E1; [lia|].
    rewrite !Z.abs_opp.
    destruct (0 <=? x) eqn:Ex; [|destruct (0 <=? y) eqn:Ey]; cbn [fst snd];
    (destruct (0 <=? - y) eqn:Ey'; cbn [fst snd]);
    match goal with |- context [2 * ?s <? ?t] => destruct (2 * s <? t) eqn:Et end;
    (split; [f_equal; lia|lia]). }
  destruct H as [H1 H2]. split; [|exact H2]. split.
  - unfold quarter_turn. cbn [fst snd]. intros E. injection E. intros. apply Hn. lia.
  - unfold quarter_turn. cbn [fst snd]. symmetry. exact H1.
Qed.

Lemma tgt_step m i : m <> (0, 0) -> (i <= 2)%nat -> let a := angle_tgt m i in
  angle_tgt m (S i) = (if 2 * snd a <? fst a + snd a then fst a + snd a - 4 * snd a else fst a + snd a, snd a).
Proof.
  intros Hm Hi. destruct (turn_angle (snd (cart2pol (fst m) (snd m))) m (conj Hm eq_refl)) as [_ Hb].
  pose proof (pol_pos (fst m) (snd m)) as Hd.
  unfold angle_tgt. destruct (snd (cart2pol (fst m) (snd m))) as [num den]. cbn [fst snd] in *.
  assert (Hl : - 2 * den < (if 0 <? num then num - 2 * den else num + 2 * den) <= 2 * den) by (destruct (0 <? num) eqn:E; lia).
  set (l := if 0 <? num then num - 2 * den else num + 2 * den) in *.
  f_equal. destruct i as [|[|[|i]]]; [| | |lia]; cbn [Z.of_nat Pos.of_succ_nat Pos.succ];
    repeat match goal with |- context [?a <? ?b] => destruct (Z.ltb_spec a b) end; lia.
Qed.

Lemma tgt_ray m i : m <> (0, 0) -> (i < 4)%nat -> same_angle (angle_tgt m i) (ray m i).
Proof.
  intros Hm. induction i as [|i IH]; intros Hi; [apply tgt_ray0; exact Hm|].
  specialize (IH ltac:(lia)). destruct (turn_angle _ _ IH) as [H1 H2].
  pose proof (tgt_step m i Hm ltac:(lia)) as Hs. cbv zeta in Hs. rewrite Hs. exact H1.
Qed.

(** The first position above an angle *)
Lemma find_above_spec phis tgt : match find_above phis tgt with
  | Some i => (i < length phis)%nat /\ frac_leb (nth i phis (0, 1)) tgt = false /\ forall j, (j < i)%nat -> frac_leb (nth j phis (0, 1)) tgt = true
  | None => forall j, (j < length phis)%nat -> frac_leb (nth j phis (0, 1)) tgt = true
  end.
Proof.
  induction phis as [|p t IH]; cbn [find_above]; [intros j Hj; cbn in Hj; lia|].
  destruct (frac_leb p tgt) eqn:E.
  - destruct (find_above t tgt) as [i|]; cbn [option_map].
    + destruct IH as (H1 & H2 & H3). split; [cbn; lia|]. split; [exact H2|]. intros [|j] Hj; [exact E|]. cbn [nth]. apply H3. lia.
    + intros [|j] Hj; [exact E|]. cbn [nth]. apply IH. cbn in Hj. lia.
  - split; [cbn; lia|]. split; [exact E|]. intros j Hj. lia.
Qed.

Section S.
Variable argsort : list fraction -> list nat.
Hypothesis Hsort : sorts argsort.

(** The sweep of points: angles, distances and nodes *)
Lemma sweep_of_points pts : pts <> [] -> planar pts ->
  exists phis rho order, get_sweep_from_cartesian_coordinates argsort pts = Some (phis, rho, order) /\
    read_coordinates argsort pts = Some (rho, order) /\
    Permutation order (seq 1 (length pts - 1)) /\ length phis = length order /\
    (forall i, (i < length order)%nat -> nth i phis (0, 1) = snd (cart2pol (px pts (nth i order 0%nat)) (py pts (nth i order 0%nat)))).
Proof.
  intros Hne Hp. destruct pts as [|p0 pts0] eqn:Epts; [contradiction|]. rewrite <- Epts in *.
  assert (H0 : length p0 = 2%nat) by (unfold planar in Hp; rewrite Epts in Hp; now inversion Hp).
  destruct p0 as [|x0 [|y0 [|]]]; try discriminate.
  set (f := fun p => cart2pol (nth 0 p 0 - x0) (nth 1 p 0 - y0)).
  set (pol := map f pts).
  set (phis := map snd pol). set (rhos := map fst pol).
  assert (Hpos : Forall (fun a : fraction => 0 < snd a) (tl phis)).
  { apply Forall_forall. intros a Ha. assert (Ha' : In a phis) by (destruct phis; [destruct Ha|right; exact Ha]). unfold phis, pol in Ha'.
    rewrite map_map in Ha'. apply in_map_iff in Ha'. destruct Ha' as (pt & <- & _). apply pol_pos. }
  destruct (Hsort (tl phis) Hpos) as (HP & _). clear Hpos. change (Z * Z)%type with fraction in *. set (ord := argsort (tl phis)) in *.
  assert (Hlen : length (tl phis) = (length pts - 1)%nat) by (unfold phis, pol; rewrite tl_len, !map_length; reflexivity).
  assert (Hord : length ord = (length pts - 1)%nat) by (rewrite (Permutation_length HP), seq_length; exact Hlen).
  assert (Hin : forall i, (i < length ord)%nat -> (nth i ord 0 < length pts - 1)%nat).
  { intros i Hi. assert (X : In (nth i ord 0%nat) (seq 0 (length (tl phis)))) by (eapply Permutation_in; [exact HP|apply nth_In; exact Hi]). apply in_seq in X. lia. }
  exists (map (fun i => nth i (tl phis) (0, 1)) ord), (map (fun i => nth i (tl rhos) 0) ord), (map (fun i => nth i (range 1 (length rhos)) 0%nat) ord).
  assert (Hnode : map (fun i => nth i (range 1 (length rhos)) 0%nat) ord = map S ord).
  { apply map_ext_in. intros i Hi. apply (Permutation_in _ HP) in Hi. apply in_seq in Hi. unfold range, rhos, pol. rewrite !map_length.
    rewrite seq_nth by lia. lia. }
  assert (E : forall n, (1 <= n < length pts)%nat -> nth n phis (0, 1) = snd (cart2pol (px pts n) (py pts n))).
  { intros n Hn. unfold phis. change (0, 1) with (snd (0, (0, 1))) at 1. rewrite map_nth. f_equal.
    unfold pol. rewrite (nth_indep _ (0, (0, 1)) (f [])) by (rewrite map_length; lia). rewrite map_nth. unfold f, px, py.
    f_equal; rewrite Epts; reflexivity. }
  split; [rewrite Epts at 1; cbn [get_sweep_from_cartesian_coordinates]; rewrite <- Epts; reflexivity|].
  split.
  { rewrite Epts at 1. cbn [read_coordinates length Nat.eqb]. rewrite <- Epts. rewrite Epts at 1. cbn [get_sweep_from_cartesian_coordinates]. rewrite <- Epts. reflexivity. }
  rewrite Hnode. split; [|split].
  - rewrite (Permutation_map S HP). rewrite seq_shift, Hlen. reflexivity.
  - now rewrite !map_length.
  - intros i Hi. rewrite map_length in Hi.
    rewrite (nth_indep _ (0, 1) (nth 0 (tl phis) (0, 1))) by (now rewrite map_length).
    rewrite (map_nth (fun i => nth i (tl phis) (0, 1))). rewrite (nth_indep (map S ord) 0%nat 1%nat) by (now rewrite map_length).
    rewrite map_nth, nth_tl. apply E. specialize (Hin i Hi). lia.
Qed.

Lemma customer_at (pts : list (list Z)) order n : Permutation order (seq 1 (length pts - 1)) -> (1 <= n < length pts)%nat ->
  exists j, (j < length order)%nat /\ nth j order 0%nat = n.
Proof.
  intros HP Hn. apply In_nth. apply (Permutation_in _ (Permutation_sym HP)). apply in_seq. lia.
Qed.

Lemma starts_right pts phis rho order v tgt : (2 <= length pts)%nat -> planar pts ->
  get_sweep_from_cartesian_coordinates argsort pts = Some (phis, rho, order) -> same_angle tgt v ->
  (start_node (length pts) phis true tgt < length pts - 1)%nat /\
  first_ccw pts v (nth (start_node (length pts) phis true tgt) order 0%nat) /\
  (start_node (length pts) phis false tgt < length pts - 1)%nat /\
  first_cw pts v (nth (start_node (length pts) phis false tgt) order 0%nat).
Proof.
  intros HN Hp Hsw [Hv Htgt].
  assert (Hne : pts <> []) by (intros ->; cbn in HN; lia).
  destruct (sweep_of_points pts Hne Hp) as (phis' & rho' & order' & E & Er & HP & Hl & Hphi).
  rewrite Hsw in E. injection E as <- <- <-.
  destruct (read_points argsort Hsort pts Hne Hp) as (rho' & order' & Er' & _ & _ & _ & Hasc).
  rewrite Er in Er'. injection Er' as <- <-.
  assert (Hlen : length order = (length pts - 1)%nat) by (rewrite (Permutation_length HP), seq_length; reflexivity).
  assert (Hcust : forall i, (i < length order)%nat -> (1 <= nth i order 0 < length pts)%nat).
  { intros i Hi. assert (X : In (nth i order 0%nat) (seq 1 (length pts - 1))) by (eapply Permutation_in; [exact HP|apply nth_In; exact Hi]).
    apply in_seq in X. lia. }
  assert (Hle : forall i, (i < length order)%nat -> frac_leb (nth i phis (0, 1)) tgt = true <-> ~ past pts v (nth i order 0%nat)).
  { intros i Hi. rewrite (Hphi i Hi), Htgt. unfold past. rewrite <- pol_leb.
    match goal with |- context [frac_leb ?a ?b] => destruct (frac_leb a b) end; split; intros; try discriminate; auto. }
  assert (Hnl : forall i j, (i < length order)%nat -> (j < length order)%nat -> (i <= j)%nat ->
            before pts (nth i order 0%nat) (nth j order 0%nat)).
  { intros i j Hi Hj Hij. unfold before. destruct (Nat.eq_dec i j) as [->|Hne'].
    - right. split; [reflexivity|]. lia.
    - apply Hasc. lia. }
  pose proof (find_above_spec phis tgt) as Hf. unfold start_node, argmax_above.
  destruct (find_above phis tgt) as [k|].
  - destruct Hf as (F1 & F2 & F3). rewrite Hl in F1.
    assert (Hk : past pts v (nth k order 0%nat)).
    { pose proof (proj2 (Hle k F1)) as X. unfold past. intros Hx. rewrite X in F2; [discriminate|]. unfold past. auto. }
    assert (Hup : forall j, (k <= j < length order)%nat -> past pts v (nth j order 0%nat)).
    { intros j Hj. unfold past in *. intros Hx. apply Hk.
      assert (Hb : before pts (nth k order 0%nat) (nth j order 0%nat)) by (apply Hnl; lia). unfold before in Hb.
      rewrite <- pol_leb in Hb, Hx. apply pol_leb.
      destruct v as [vx vy]. cbn [fst snd] in *.
      pose proof (pol_pos (px pts (nth k order 0%nat)) (py pts (nth k order 0%nat))) as P1.
      pose proof (pol_pos (px pts (nth j order 0%nat)) (py pts (nth j order 0%nat))) as P2.
      pose proof (pol_pos vx vy) as P3.
      unfold frac_leb in *. 
      destruct (snd (cart2pol (px pts (nth k order 0%nat)) (py pts (nth k order 0%nat)))) as [a b].
      destruct (snd (cart2pol (px pts (nth j order 0%nat)) (py pts (nth j order 0%nat)))) as [c e].
      destruct (snd (cart2pol vx vy)) as [g h]. cbn [fst snd] in *.
      apply Z.leb_le. apply Z.leb_le in Hb, Hx. nia. }
    split; [lia|]. split.
    + split; [apply Hcust; exact F1|]. left. split; [exact Hk|].
      intros b Hb Hpb. destruct (customer_at pts order b HP Hb) as (j & Hj & <-).
      apply Hnl; [exact F1|exact Hj|]. destruct (Nat.le_gt_cases k j) as [|Hlt]; [assumption|exfalso].
      apply (proj1 (Hle j Hj)); [apply F3; exact Hlt|exact Hpb].
    + destruct k as [|k].
      * split; [lia|]. split; [apply Hcust; lia|]. right. split.
        -- intros b Hb. destruct (customer_at pts order b HP Hb) as (j & Hj & <-). apply Hup. lia.
        -- intros b Hb. destruct (customer_at pts order b HP Hb) as (j & Hj & <-). apply Hnl; lia.
      * split; [lia|]. split; [apply Hcust; lia|]. left. split.
        -- apply Hle; [lia|]. apply F3. lia.
        -- intros b Hb Hpb. destruct (customer_at pts order b HP Hb) as (j & Hj & <-).
           apply Hnl; [exact Hj|lia|]. destruct (Nat.le_gt_cases j k) as [|Hgt]; [assumption|exfalso].
           apply Hpb. apply Hup. lia.
  - assert (Hall : forall b, (1 <= b < length pts)%nat -> ~ past pts v b).
    { intros b Hb. destruct (customer_at pts order b HP Hb) as (j & Hj & <-). apply Hle; [exact Hj|]. apply Hf. lia. }
    split; [lia|]. split.
    + split; [apply Hcust; lia|]. right. split; [exact Hall|].
      intros b Hb. destruct (customer_at pts order b HP Hb) as (j & Hj & <-). apply Hnl; lia.
    + split; [lia|]. split; [apply Hcust; lia|]. left. split; [apply Hall, Hcust; lia|].
      intros b Hb _. destruct (customer_at pts order b HP Hb) as (j & Hj & <-). apply Hnl; lia.
Qed.

(** The mean direction *)

Lemma sum_places pts d : (match d with Some ds => length ds = length pts | None => True end) ->
  let m := sum_of_places pts d in
  mean_direction pts (weight_of d) = if (fst m =? 0) && (snd m =? 0) then (1, 0) else m.
Proof.
  intros Hd. unfold mean_direction.
  assert (E : sum_of_places pts d =
     (sumZ (map (fun n => weight_of d n * px pts n) (seq 1 (length pts - 1))),
      sumZ (map (fun n => weight_of d n * py pts n) (seq 1 (length pts - 1))))).
  2: { rewrite E. reflexivity. }
  unfold sum_of_places, px, py. destruct pts as [|p0 pts]; [destruct d as [[|]|]; [reflexivity|discriminate|reflexivity]|].
  cbn [tl nth length]. replace (S (length pts) - 1)%nat with (length pts) by lia.
  rewrite <- !seq_shift, !map_map. cbn [nth].
  assert (G : forall (k : nat) (w : nat -> Z) (g : list Z -> Z),
            sumZ (map (fun x => w x * (g (nth x pts []) - g p0)) (seq 0 (length pts))) =
            sumZ (map (fun q => fst q * (g (snd q) - g p0)) (combine (map w (seq 0 (length pts))) pts))).
  { intros _ w g. f_equal. clear. revert w. induction pts as [|p pts IH]; intros w; [reflexivity|].
    cbn [length seq map combine nth fst snd]. f_equal. rewrite <- !seq_shift, !map_map. cbn [nth]. apply IH. }
  pose proof (G 0%nat (fun x => weight_of d (S x)) (fun p => nth 0 p 0)) as G0.
  pose proof (G 0%nat (fun x => weight_of d (S x)) (fun p => nth 1 p 0)) as G1. cbn beta in G0, G1.
  rewrite G0, G1. clear G G0 G1.
  destruct d as [ds|].
  - destruct ds as [|d0 ds]; [discriminate|]. cbn [tl length] in *. injection Hd as Hd.
    assert (Ew : map (fun x => weight_of (Some (d0 :: ds)) (S x)) (seq 0 (length pts)) = ds).
    { rewrite <- Hd. cbn [weight_of nth]. clear. induction ds as [|a ds IH]; [reflexivity|].
      cbn [length seq map nth]. f_equal. rewrite <- seq_shift, map_map. exact IH. }
    rewrite Ew. clear Ew. f_equal; f_equal; rewrite !map_map; clear;
    revert pts; induction ds as [|a ds IH]; intros [|p pts]; try reflexivity; cbn [map combine fst snd]; f_equal; apply IH.
  - assert (G : forall (g : list Z -> Z) k, map (fun p => g p) pts =
      map (fun q : Z * list Z => fst q * g (snd q)) (combine (map (fun _ : nat => 1) (seq k (length pts))) pts)).
    { intros g. clear. induction pts as [|p pts IH]; intros k; [reflexivity|].
      cbn [length seq map combine fst snd]. f_equal; [ring|apply IH]. }
    cbn [weight_of]. rewrite !map_map. cbn [fst snd].
    rewrite (G (fun p => nth 0 p 0 - nth 0 p0 0) 0%nat), (G (fun p => nth 1 p 0 - nth 1 p0 0) 0%nat). reflexivity.
Qed.

Lemma angle_ray pts d i : (match d with Some ds => length ds = length pts | None => True end) -> (i < 4)%nat ->
  same_angle (angle_tgt (sum_of_places pts d) i) (ray (mean_direction pts (weight_of d)) i).
Proof.
  intros Hd Hi. rewrite (sum_places pts d Hd). destruct (sum_of_places pts d) as [mx my]. cbn [fst snd].
  destruct ((mx =? 0) && (my =? 0)) eqn:E.
  - assert (mx = 0) by lia. assert (my = 0) by lia. subst. rewrite tgt_ray_zero. apply tgt_ray; [discriminate|exact Hi].
  - apply tgt_ray; [|exact Hi]. intros H. injection H. intros. lia.
Qed.
End S.
