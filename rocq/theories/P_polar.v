(** * Proofs about coordinates and angles *)
From Coq Require Import ZifyBool ZifyNat Lia.
From Verif Require Import Spec Spec_inter Spec_savings Spec_rfcs PyBase M_util M_psavings M_sweep Spec_sweep M_polar Spec_polar P_base P_sweep5 P_sweep6.

Lemma pol_leb x y x' y' : frac_leb (snd (cart2pol x y)) (snd (cart2pol x' y')) = true <-> not_later x y x' y'.
Proof.
  unfold frac_leb, cart2pol, not_later, quarter. cbn [snd].
  destruct ((x =? 0) && (y =? 0)) eqn:E1; destruct ((x' =? 0) && (y' =? 0)) eqn:E2;
  destruct (0 <=? x) eqn:Ex; destruct (0 <=? y) eqn:Ey; destruct (0 <=? x') eqn:Ex'; destruct (0 <=? y') eqn:Ey';
  destruct (y <? 0) eqn:Fy; destruct (y' <? 0) eqn:Fy'; destruct (0 <? y) eqn:Gy; destruct (0 <? y') eqn:Gy'; try lia; cbn [fst snd];
  try (split; intros H; try lia; nia).
Qed.

Lemma pol_pos x y : 0 < snd (snd (cart2pol x y)).
Proof.
  unfold cart2pol. cbn [snd]. destruct ((x =? 0) && (y =? 0)) eqn:E; [cbn; lia|].
  destruct (0 <=? x) eqn:E1; [cbn [snd]; lia|]. destruct (0 <=? y) eqn:E2; cbn [snd]; lia.
Qed.

Section order.
Variable argsort : list fraction -> list nat.
Hypothesis Hsort : sorts argsort.

Lemma nth_tl {A} (l : list A) i x : nth i (tl l) x = nth (S i) l x.
Proof. destruct l; [now destruct i|reflexivity]. Qed.
Lemma tl_len {A} (l : list A) : length (tl l) = (length l - 1)%nat.
Proof. destruct l; cbn; lia. Qed.

Lemma read_points pts : pts <> [] -> planar pts ->
  exists rho order, read_coordinates argsort pts = Some (rho, order) /\
    Permutation order (seq 1 (length pts - 1)) /\ length rho = length order /\
    (forall i, (i < length order)%nat -> nth i rho 0 = px pts (nth i order 0%nat) * px pts (nth i order 0%nat) + py pts (nth i order 0%nat) * py pts (nth i order 0%nat)) /\
    (forall i j, (i < j < length order)%nat ->
       not_later (px pts (nth i order 0%nat)) (py pts (nth i order 0%nat)) (px pts (nth j order 0%nat)) (py pts (nth j order 0%nat))).
Proof.
  intros Hne Hp. destruct pts as [|p0 pts0] eqn:Epts; [contradiction|]. rewrite <- Epts in *.
  assert (H0 : length p0 = 2%nat) by (unfold planar in Hp; rewrite Epts in Hp; now inversion Hp).
  destruct p0 as [|x0 [|y0 [|]]]; try discriminate.
  set (f := fun p => cart2pol (nth 0 p 0 - x0) (nth 1 p 0 - y0)).
  set (pol := map f pts).
  set (phis := map snd pol). set (rhos := map fst pol).
  assert (Hpos : Forall (fun a : fraction => 0 < snd a) (tl phis)).
  { apply Forall_forall. intros a Ha. assert (Ha' : In a phis) by (destruct phis; [destruct Ha|right; exact Ha]). unfold phis, pol in Ha'.
    rewrite map_map in Ha'. apply in_map_iff in Ha'. destruct Ha' as (pt & <- & _). apply pol_pos. }
  destruct (Hsort (tl phis) Hpos) as (HP & HS). clear Hpos. change (Z * Z)%type with fraction in *. set (ord := argsort (tl phis)) in *.
  assert (Hlen : length (tl phis) = (length pts - 1)%nat) by (unfold phis, pol; rewrite tl_len, !map_length; reflexivity).
  assert (Hord : length ord = (length pts - 1)%nat) by (rewrite (Permutation_length HP), seq_length; exact Hlen).
  assert (Hin : forall i, (i < length ord)%nat -> (nth i ord 0 < length pts - 1)%nat).
  { intros i Hi. assert (X : In (nth i ord 0%nat) (seq 0 (length (tl phis)))) by (eapply Permutation_in; [exact HP|apply nth_In; exact Hi]). apply in_seq in X. lia. }
  exists (map (fun i => nth i (tl rhos) 0) ord), (map (fun i => nth i (range 1 (length rhos)) 0%nat) ord).
  assert (Hnode : map (fun i => nth i (range 1 (length rhos)) 0%nat) ord = map S ord).
  { apply map_ext_in. intros i Hi. apply (Permutation_in _ HP) in Hi. apply in_seq in Hi. unfold range, rhos, pol. rewrite !map_length.
    rewrite seq_nth by lia. lia. }
  assert (Hfx : forall n, (1 <= n < length pts)%nat -> nth n pol (0, (0, 1)) = cart2pol (px pts n) (py pts n)).
  { intros n Hn. unfold pol. rewrite (nth_indep _ (0, (0, 1)) (f [])) by (rewrite map_length; lia). rewrite map_nth. unfold f, px, py.
    f_equal; rewrite Epts; reflexivity. }
  split; [|rewrite Hnode; split; [|split; [|split]]].
  - rewrite Epts at 1. cbn [read_coordinates length Nat.eqb]. rewrite <- Epts. rewrite Epts at 1. cbn [get_sweep_from_cartesian_coordinates]. rewrite <- Epts. reflexivity.
  - rewrite (Permutation_map S HP). rewrite seq_shift, Hlen. reflexivity.
  - now rewrite !map_length.
  - intros i Hi. rewrite map_length in Hi.
    rewrite (nth_indep _ 0 (nth 0 (tl rhos) 0)) by (now rewrite map_length).
    rewrite (map_nth (fun i => nth i (tl rhos) 0)). rewrite (nth_indep (map S ord) 0%nat 1%nat) by (now rewrite map_length).
    rewrite map_nth. rewrite nth_tl. specialize (Hin i Hi).
    unfold rhos. change 0 with (fst (0, (0, 1))) at 1. rewrite map_nth. rewrite Hfx by lia. reflexivity.
  - intros i j Hij. rewrite map_length in Hij.
    rewrite (nth_indep (map S ord) 0%nat 1%nat) by (rewrite map_length; lia). rewrite (nth_indep (map S ord) 0%nat 1%nat) by (rewrite map_length; lia).
    rewrite !map_nth. apply pol_leb. specialize (HS i j ltac:(lia)). rewrite !nth_tl in HS.
    assert (E : forall n, (1 <= n < length pts)%nat -> nth n phis (0, 1) = snd (cart2pol (px pts n) (py pts n))).
    { intros n Hn. unfold phis. change (0, 1) with (snd (0, (0, 1))) at 1. rewrite map_nth. now rewrite Hfx. }
    pose proof (Hin i ltac:(lia)). pose proof (Hin j ltac:(lia)). rewrite (E (S (nth i ord 0%nat))), (E (S (nth j ord 0%nat))) in HS by lia. exact HS.
Qed.

Lemma read_sweep phi rho nodes : length phi = length rho -> length rho = length nodes -> length phi <> 2%nat ->
  read_coordinates argsort [phi; rho; nodes] = Some (rho, map Z.to_nat nodes).
Proof.
  intros H1 H2 H3. cbn [read_coordinates]. apply Nat.eqb_neq in H3. rewrite H3. now rewrite H1, H2, !Nat.eqb_refl.
Qed.

(** A sweep of two customers is taken for three points. *)
Lemma read_two phi rho nodes : length phi = 2%nat -> length rho = 2%nat -> length nodes = 2%nat ->
  exists rho' order, read_coordinates argsort [phi; rho; nodes] = Some (rho', order) /\ Permutation order [1; 2]%nat.
Proof.
  intros H1 H2 H3. destruct (read_points [phi; rho; nodes]) as (rho' & order & E & P & _); [discriminate|repeat constructor; assumption|].
  exists rho', order. split; [exact E|exact P].
Qed.
End order.

(** ** Angular ranges *)
Lemma passed_snoc pi l p q x : passed pi ((l ++ [p]) ++ [q]) x <-> passed pi (l ++ [p]) x \/ x = q \/ between_shorter pi p q x.
Proof.
  unfold passed. split.
  - intros [H|(a & u & w & b & E & H)].
    + apply in_app_or in H. destruct H as [H|[<-|[]]]; [left; now left|right; now left].
    + destruct (list_eq_dec Z.eq_dec b []) as [->|Hb].
      * right; right. rewrite <- app_assoc in E. cbn [app] in E.
        change (a ++ [u; w]) with (a ++ [u] ++ [w]) in E. change (l ++ [p; q]) with (l ++ [p] ++ [q]) in E. rewrite !app_assoc in E.
        apply app_inj_tail in E. destruct E as (E & ->). apply app_inj_tail in E. destruct E as (_ & ->). exact H.
      * left. right. exists a, u, w, (removelast b). split; [|exact H].
        rewrite (app_removelast_last 0 Hb) in E. change (a ++ u :: w :: removelast b ++ [last b 0]) with (a ++ (u :: w :: removelast b) ++ [last b 0]) in E.
        rewrite app_assoc in E. apply app_inj_tail in E. exact (proj1 E).
  - intros [[H|(a & u & w & b & E & H)]|[->|H]].
    + left. apply in_or_app. now left.
    + right. exists a, u, w, (b ++ [q]). split; [|exact H]. rewrite E. now rewrite <- app_assoc.
    + left. apply in_or_app. right. now left.
    + right. exists l, p, q, []. split; [|exact H]. now rewrite <- app_assoc.
Qed.

Ltac eqs := repeat match goal with
  | |- context [?a =? ?b] => destruct (Z.eqb_spec a b)
  end.
Ltac mins := repeat match goal with
  | |- context [Z.min ?a ?b] => destruct (Z.min_spec a b) as [(? & ->)|(? & ->)]
  | |- context [Z.max ?a ?b] => destruct (Z.max_spec a b) as [(? & ->)|(? & ->)]
  end.
Ltac step0 := split; [reflexivity|]; constructor; cbn [neg_min neg_max pos_min pos_max];
  [ eqs; lia
  | split; [lia|assumption]
  | split; [intros; first [discriminate|lia]|intros ? HS0; first [discriminate HS0|injection HS0 as <-; lia]]
  | intros x0 HP0 HR0; match goal with H : forall x, _ -> _ <= x <= 0 -> _ |- _ => pose proof (H x0 HP0 HR0) end; eqs; lia
  | intros x0 HP0 HR0; match goal with H : forall x, _ -> 0 <= x <= _ -> _ |- _ => pose proof (H x0 HP0 HR0) end; eqs; lia
  | match goal with H : (_ = 0 /\ _ = - _) \/ _ |- _ => destruct H as [(? & ?)|(? & ? & ?)] end; subst; first [left; eqs; lia|right; eqs; mins; (split; [lia|split; first [assumption|match goal with H : forall x, _ -> ?P x |- ?P _ => apply H; lia end]])]
  | match goal with H : (_ = _ /\ _ = 0) \/ _ |- _ => destruct H as [(? & ?)|(? & ? & ?)] end; subst; first [left; eqs; lia|right; eqs; mins; (split; [lia|split; first [assumption|match goal with H : forall x, _ -> ?P x |- ?P _ => apply H; lia end]])]
  ].

Section ranges.
Variable pi : Z.
Hypothesis Hpi : 0 < pi.

Record rinv (l : list Z) (h : half_ranges) (sign : option Z) (prev : Z) : Prop := {
  ri_dom : - pi <= neg_min h <= 0 /\ - pi <= neg_max h <= 0 /\ 0 <= pos_min h <= pi /\ 0 <= pos_max h <= pi;
  ri_prev : - pi <= prev <= pi /\ passed pi l prev;
  ri_sign : (sign = None -> prev = 0) /\ (forall s, sign = Some s -> (s = 1 \/ s = -1) /\ (prev = 0 \/ Z.sgn prev = s));
  ri_neg : forall x, passed pi l x -> - pi <= x <= 0 -> neg_min h <= x <= neg_max h;
  ri_pos : forall x, passed pi l x -> 0 <= x <= pi -> pos_min h <= x <= pos_max h;
  ri_nend : (neg_min h = 0 /\ neg_max h = - pi) \/ (neg_min h <= neg_max h /\ passed pi l (neg_min h) /\ passed pi l (neg_max h));
  ri_pend : (pos_min h = pi /\ pos_max h = 0) \/ (pos_min h <= pos_max h /\ passed pi l (pos_min h) /\ passed pi l (pos_max h)) }.

Lemma rinv_first p : - pi <= p <= pi -> let '(h, s, q) := phi_step pi (mkhr 0 (- pi) pi 0, None, p) p in q = p /\ rinv [p] h s p.
Proof.
  intros Hp. unfold phi_step.
  assert (HP : forall x, passed pi [p] x <-> x = p).
  { intros x. unfold passed. split.
    - intros [[->|[]]|(a & u & w & b & E & _)]; [reflexivity|]. destruct a as [|? [|]]; discriminate.
    - intros ->. left. now left. }
  assert (Hc : match (None : option Z) with Some a => match (if p =? 0 then None else Some (Z.sgn p)) with Some b => negb (a =? b) | None => false end | None => false end = false) by reflexivity.
  cbn [neg_min neg_max pos_min pos_max].
  destruct (Z.leb_spec p 0); destruct (Z.leb_spec 0 p); try lia; cbn [neg_min neg_max pos_min pos_max]; (split; [reflexivity|]); constructor; cbn [neg_min neg_max pos_min pos_max]; intros; rewrite ?HP in *; 
  try (destruct (Z.eqb_spec p 0)); try (destruct (Z.eqb_spec 0 (- pi))); try (destruct (Z.eqb_spec (- pi) 0)); try (destruct (Z.eqb_spec 0 pi)); try (destruct (Z.eqb_spec pi 0)); try lia;
  try (split; [intros; try discriminate; lia|intros s Hs; inversion Hs; subst; lia]).
Qed.

Lemma rinv_step l h sign p q : rinv (l ++ [p]) h sign p -> - pi <= q <= pi ->
  let '(h', s', q') := phi_step pi (h, sign, p) q in q' = q /\ rinv ((l ++ [p]) ++ [q]) h' s' q.
Proof.
  intros [(D1 & D2 & D3 & D4) (Hpp & Hpas) (S1 & S2) Hn Hpo En Ep] Hq. unfold phi_step.
  assert (HPS := passed_snoc pi l p q). set (P := passed pi (l ++ [p])) in *. set (P' := passed pi ((l ++ [p]) ++ [q])) in *.
  assert (Pq : P' q) by (apply HPS; tauto). assert (Pold : forall x, P x -> P' x) by (intros; apply HPS; tauto).
  assert (Pbet : forall x, between_shorter pi p q x -> P' x) by (intros; apply HPS; tauto).
  assert (Hn' : p <= 0 -> neg_min h <= p <= neg_max h) by (intros; apply Hn; [exact Hpas|lia]).
  assert (Hpo' : 0 <= p -> pos_min h <= p <= pos_max h) by (intros; apply Hpo; [exact Hpas|lia]).
  assert (Hsg : sign = None /\ p = 0 \/ sign = Some 1 /\ 0 <= p \/ sign = Some (-1) /\ p <= 0).
  { destruct sign as [s|]; [|left; auto]. destruct (S2 s eq_refl) as ([-> | ->] & [G|G]); [right; left|right; left|right; right|right; right]; (split; [reflexivity|lia]). }
  clear S1 S2.
  assert (Hx : forall x, P' x -> P x \/ x = q \/ between_shorter pi p q x) by (intros x; apply HPS). clear HPS.
  unfold between_shorter in Pbet, Hx.
  destruct h as [nm nM pm pM]. cbn [neg_min neg_max pos_min pos_max] in *.
  assert (A1 : forall x, (x = nm /\ P' nm) \/ (x = q) \/ ((if Z.abs (p - q) <=? pi then Z.min p q <= x <= Z.max p q else x <= Z.min p q \/ Z.max p q <= x)) -> P' x)
    by (intros x [(-> & G)|[->|G]]; auto).
  clear A1.
  assert (Hnd : forall x, P' x -> - pi <= x <= 0 -> (nm <= x <= nM) \/ x = q \/ (if Z.abs (p - q) <=? pi then Z.min p q <= x <= Z.max p q else x <= Z.min p q \/ Z.max p q <= x)).
  { intros x G1 G2. destruct (Hx x G1) as [G|[G|G]]; auto. }
  assert (Hpd : forall x, P' x -> 0 <= x <= pi -> (pm <= x <= pM) \/ x = q \/ (if Z.abs (p - q) <=? pi then Z.min p q <= x <= Z.max p q else x <= Z.min p q \/ Z.max p q <= x)).
  { intros x G1 G2. destruct (Hx x G1) as [G|[G|G]]; auto. }
  assert (En' : (nm = 0 /\ nM = - pi) \/ (nm <= nM /\ P' nm /\ P' nM)) by (destruct En as [G|(G1 & G2 & G3)]; auto).
  assert (Ep' : (pm = pi /\ pM = 0) \/ (pm <= pM /\ P' pm /\ P' pM)) by (destruct Ep as [G|(G1 & G2 & G3)]; auto).
  clear En Ep Hx Hn Hpo.
  assert (HB : forall x, (if Z.abs (p - q) <=? pi then Z.min p q <= x <= Z.max p q else x <= Z.min p q \/ Z.max p q <= x) -> P' x) by exact Pbet. clear Pbet.
  destruct (Z.leb_spec (Z.abs (p - q)) pi) as [HA|HA].
  - (* the way does not wrap around *)
    assert (HA' : pi <? Z.abs (q - p) = false) by lia. rewrite HA'.
    destruct (Z.leb_spec q 0) as [Q|Q]; [destruct (Z.leb_spec 0 q) as [Q1|Q1]|destruct (Z.leb_spec 0 q) as [Q1|Q1]; [|lia]].
    + assert (q = 0) by lia. subst q. cbn [Z.eqb].
      destruct Hsg as [(-> & Hp0)|[(-> & Hp0)|(-> & Hp0)]]; cbn [Z.eqb negb Pos.eqb]; step0.
    + assert (Q2 : q =? 0 = false) by lia. rewrite Q2. replace (Z.sgn q) with (-1) by lia.
      destruct Hsg as [(-> & Hp0)|[(-> & Hp0)|(-> & Hp0)]]; cbn [Z.eqb negb Pos.eqb]; step0.
    + assert (Q2 : q =? 0 = false) by lia. rewrite Q2. replace (Z.sgn q) with 1 by lia.
      destruct Hsg as [(-> & Hp0)|[(-> & Hp0)|(-> & Hp0)]]; cbn [Z.eqb negb Pos.eqb]; step0.
  - assert (HA' : pi <? Z.abs (q - p) = true) by lia. rewrite HA'.
    destruct (Z.leb_spec q 0) as [Q|Q]; [destruct (Z.leb_spec 0 q) as [Q1|Q1]; [lia|]|destruct (Z.leb_spec 0 q) as [Q1|Q1]; [|lia]].
    + assert (Q2 : q =? 0 = false) by lia. rewrite Q2. replace (Z.sgn q) with (-1) by lia.
      destruct Hsg as [(-> & Hp0)|[(-> & Hp0)|(-> & Hp0)]]; try lia; cbn [Z.eqb negb Pos.eqb]; step0.
    + assert (Q2 : q =? 0 = false) by lia. rewrite Q2. replace (Z.sgn q) with 1 by lia.
      destruct Hsg as [(-> & Hp0)|[(-> & Hp0)|(-> & Hp0)]]; try lia; cbn [Z.eqb negb Pos.eqb]; step0.
Qed.

Lemma rinv_fold l2 : forall l h s p, rinv (l ++ [p]) h s p -> Forall (fun q => - pi <= q <= pi) l2 ->
  exists s' p', rinv ((l ++ [p]) ++ l2) (fst (fst (fold_left (phi_step pi) l2 (h, s, p)))) s' p'.
Proof.
  induction l2 as [|q l2 IH]; intros l h s p H HF.
  - exists s, p. now rewrite app_nil_r.
  - inversion HF as [|? ? Hq HF']; subst. pose proof (rinv_step l h s p q H Hq) as H2. cbn [fold_left].
    destruct (phi_step pi (h, s, p) q) as [[h' s'] q'] eqn:E. destruct H2 as (-> & H2).
    destruct (IH (l ++ [p]) h' s' q H2 HF') as (s2 & p2 & H3). exists s2, p2. now rewrite <- app_assoc in H3.
Qed.

Lemma phi_range_ok phis : phis <> [] -> Forall (fun q => - pi <= q <= pi) phis ->
  exists h, get_route_phi_range pi phis = Some h /\
    (forall x, passed pi phis x -> - pi <= x <= 0 -> neg_min h <= x <= neg_max h) /\
    (forall x, passed pi phis x -> 0 <= x <= pi -> pos_min h <= x <= pos_max h) /\
    (neg_min h <= neg_max h -> passed pi phis (neg_min h) /\ passed pi phis (neg_max h)) /\
    (pos_min h <= pos_max h -> passed pi phis (pos_min h) /\ passed pi phis (pos_max h)).
Proof.
  intros Hne HF. destruct phis as [|p l]; [contradiction|]. inversion HF as [|? ? Hp HF']; subst.
  pose proof (rinv_first p Hp) as H1. cbn [get_route_phi_range fold_left].
  destruct (phi_step pi (mkhr 0 (- pi) pi 0, None, p) p) as [[h s] q] eqn:E. destruct H1 as (-> & H1).
  destruct (rinv_fold l [] h s p H1 HF') as (s' & p' & [G1 G2 G3 G4 G5 G6 G7]). cbn [app] in *.
  eexists. split; [reflexivity|]. split; [exact G4|]. split; [exact G5|]. split; intros; [destruct G6 as [G6|G6]|destruct G7 as [G7|G7]]; try tauto; lia.
Qed.

Lemma single_no_overlap a b : - pi <= a <= pi -> - pi <= b <= pi ->
  ranges_overlap (get_route_phi_range pi [a]) (get_route_phi_range pi [b]) = false.
Proof.
  intros Ha Hb. destruct (phi_range_ok [a]) as (h1 & E1 & _ & _ & N1 & P1); [discriminate|repeat constructor; lia|].
  destruct (phi_range_ok [b]) as (h2 & E2 & _ & _ & N2 & P2); [discriminate|repeat constructor; lia|].
  rewrite E1, E2. cbn [ranges_overlap].
  assert (HP : forall c x, passed pi [c] x -> x = c).
  { intros c x [[->|[]]|(u & w & z & t & E & _)]; [reflexivity|]. destruct u as [|? [|]]; discriminate. }
  destruct (Z.leb_spec (neg_min h1) (neg_max h1)) as [G1|G1]; [destruct (N1 G1) as (X1 & X2); apply HP in X1, X2|];
  (destruct (Z.leb_spec (neg_min h2) (neg_max h2)) as [G2|G2]; [destruct (N2 G2) as (Y1 & Y2); apply HP in Y1, Y2|]);
  (destruct (Z.leb_spec (pos_min h1) (pos_max h1)) as [G3|G3]; [destruct (P1 G3) as (X3 & X4); apply HP in X3, X4|]);
  (destruct (Z.leb_spec (pos_min h2) (pos_max h2)) as [G4|G4]; [destruct (P2 G4) as (Y3 & Y4); apply HP in Y3, Y4|]); lia.
Qed.

Lemma overlap_three phis1 phis2 : Forall (fun q => - pi <= q <= pi) phis1 -> Forall (fun q => - pi <= q <= pi) phis2 ->
  ranges_overlap (get_route_phi_range pi phis1) (get_route_phi_range pi phis2) = true -> (3 <= length phis1 + length phis2)%nat.
Proof.
  intros H1 H2 HO. destruct phis1 as [|a [|? ?]]; [discriminate| |destruct phis2; [discriminate|cbn; lia]].
  destruct phis2 as [|b [|? ?]]; [discriminate| |cbn; lia]. inversion H1; inversion H2; subst. rewrite single_no_overlap in HO by assumption. discriminate.
Qed.

Lemma overlap_common phis1 phis2 x y : Forall (fun q => - pi <= q <= pi) phis1 -> Forall (fun q => - pi <= q <= pi) phis2 ->
  passed pi phis1 x -> passed pi phis1 y -> passed pi phis2 x -> passed pi phis2 y -> x < y -> (- pi <= x /\ y <= 0) \/ (0 <= x /\ y <= pi) ->
  ranges_overlap (get_route_phi_range pi phis1) (get_route_phi_range pi phis2) = true.
Proof.
  intros H1 H2 A1 A2 B1 B2 Hxy Hh.
  assert (N1 : phis1 <> []) by (intros ->; destruct A1 as [[]|([|] & ? & ? & ? & E & _)]; discriminate).
  assert (N2 : phis2 <> []) by (intros ->; destruct B1 as [[]|([|] & ? & ? & ? & E & _)]; discriminate).
  destruct (phi_range_ok phis1 N1 H1) as (h1 & E1 & X1 & X2 & _). destruct (phi_range_ok phis2 N2 H2) as (h2 & E2 & Y1 & Y2 & _).
  rewrite E1, E2. cbn [ranges_overlap]. destruct Hh as [Hh|Hh].
  - pose proof (X1 x A1). pose proof (X1 y A2). pose proof (Y1 x B1). pose proof (Y1 y B2). lia.
  - pose proof (X2 x A1). pose proof (X2 y A2). pose proof (Y2 x B1). pose proof (Y2 y B2). lia.
Qed.
End ranges.
