(** * Proofs about the distance matrices *)
From Coq Require Import ZifyBool ZifyNat.
From Verif Require Import Spec Spec_inter Spec_savings Spec_all Spec_dist PyBase M_text M_dist.

Lemma square_dist2 a b : square a b = dist2 a b.
Proof. unfold square, dist2. rewrite !Z.pow_2_r. nia. Qed.
Lemma dist2_nonneg a b : 0 <= dist2 a b.
Proof. unfold dist2. pose proof (Z.square_nonneg (fst a - fst b)). pose proof (Z.square_nonneg (snd a - snd b)). lia. Qed.
Lemma dist2_sym a b : dist2 a b = dist2 b a.
Proof. unfold dist2. ring. Qed.
Lemma square_sym a b : square a b = square b a.
Proof. now rewrite !square_dist2, dist2_sym. Qed.

Lemma le_of_squares x y : 0 <= y -> x * x <= y * y -> x <= y.
Proof. intros H1 H2. destruct (Z_le_gt_dec x y) as [H|H]; [exact H|]. nia. Qed.

Lemma square_add a b p m r : at_least a p m -> at_least b m r -> square p r <= square p m + square m r + 2 * (a * b).
Proof.
  unfold at_least, square. destruct p as [px py], m as [mx my], r as [rx ry]. cbn [fst snd]. rewrite !Z.pow_2_r. intros (Ha & H1) (Hb & H2).
  set (x1 := mx - px) in *. set (y1 := my - py) in *. set (x2 := rx - mx) in *. set (y2 := ry - my) in *.
  replace (rx - px) with (x1 + x2) by lia. replace (ry - py) with (y1 + y2) by lia. clearbody x1 y1 x2 y2.
  assert (CS : (x1 * x2 + y1 * y2) * (x1 * x2 + y1 * y2) <= (a * b) * (a * b)).
  { assert (E : (x1 * x2 + y1 * y2) * (x1 * x2 + y1 * y2) + (x1 * y2 - x2 * y1) * (x1 * y2 - x2 * y1) = (x1 * x1 + y1 * y1) * (x2 * x2 + y2 * y2)) by ring.
    assert (0 <= (x1 * y2 - x2 * y1) * (x1 * y2 - x2 * y1)) by apply Z.square_nonneg.
    assert ((x1 * x1 + y1 * y1) * (x2 * x2 + y2 * y2) <= (a * a) * (b * b)).
    { apply Z.mul_le_mono_nonneg; try assumption.
      - pose proof (Z.square_nonneg x1). pose proof (Z.square_nonneg y1). lia.
      - pose proof (Z.square_nonneg x2). pose proof (Z.square_nonneg y2). lia. }
    replace ((a * b) * (a * b)) with ((a * a) * (b * b)) by ring. lia. }
  apply le_of_squares in CS; [|now apply Z.mul_nonneg_nonneg].
  replace ((x1 + x2) * (x1 + x2) + (y1 + y2) * (y1 + y2)) with ((x1 * x1 + y1 * y1) + (x2 * x2 + y2 * y2) + 2 * (x1 * x2 + y1 * y2)) by ring. lia.
Qed.
Lemma least_add a b p m r : at_least a p m -> at_least b m r -> at_least (a + b) p r.
Proof.
  intros H1 H2. pose proof (square_add _ _ _ _ _ H1 H2) as H. destruct H1 as (Ha & H1), H2 as (Hb & H2). split; [lia|]. rewrite Z.pow_2_r in *. nia.
Qed.

Lemma most_least a b p r : at_most a p r -> at_least b p r -> a <= b.
Proof.
  unfold at_most, at_least. rewrite !Z.pow_2_r. intros [H|H] (H1 & H2); [lia|]. apply le_of_squares; lia.
Qed.

Lemma least_sym a p r : at_least a p r -> at_least a r p.
Proof. unfold at_least. now rewrite square_sym. Qed.

Lemma floor_root_spec u n : 0 < u -> 0 <= n -> let k := floor_root u n in 0 <= k /\ k * k * (u * u) <= n < (k + 1) * (k + 1) * (u * u).
Proof.
  intros Hu Hn. unfold floor_root. assert (Huu : 0 < u * u) by nia. set (w := u * u) in *. clearbody w.
  assert (Hm : 0 <= n / w) by (apply Z.div_pos; lia).
  pose proof (Z.sqrt_spec (n / w) Hm) as (S1 & S2). pose proof (Z.sqrt_nonneg (n / w)) as S0. unfold Z.succ in S2.
  pose proof (Z.div_mod n w ltac:(lia)) as E. pose proof (Z.mod_pos_bound n w Huu) as B. cbn zeta. split; [exact S0|].
  generalize dependent (Z.sqrt (n / w)). intros k S1 S2 S0. nia.
Qed.

Lemma down_floor q p r : 0 < q -> rounded_down q (floor_root q (dist2 p r)) p r.
Proof.
  intros Hq. destruct (floor_root_spec q (dist2 p r) Hq (dist2_nonneg _ _)) as (K0 & K1 & K2). set (k := floor_root q (dist2 p r)) in *. split.
  - right. rewrite square_dist2, Z.pow_2_r. lia.
  - intros k' [H|H]; [nia|]. rewrite square_dist2, Z.pow_2_r in H. destruct (Z_le_gt_dec k' k) as [X|X]; [exact X|]. exfalso.
    assert ((k + 1) * (k + 1) <= k' * k') by nia. nia.
Qed.

Lemma up_of_ceil u p r c : 0 < u -> (let k := floor_root u (dist2 p r) in (c = k /\ k * k * (u * u) = dist2 p r) \/ (c = k + 1 /\ k * k * (u * u) < dist2 p r)) -> rounded_up u c p r.
Proof.
  intros Hu. destruct (floor_root_spec u (dist2 p r) Hu (dist2_nonneg _ _)) as (K0 & K1 & K2). set (k := floor_root u (dist2 p r)) in *. cbn zeta.
  intros H. assert (Hc : 0 <= c) by lia. split.
  - split; [nia|]. rewrite square_dist2, Z.pow_2_r. destruct H as [(-> & H)|(-> & H)]; lia.
  - intros k' (H1 & H2). rewrite square_dist2, Z.pow_2_r in H2. assert (Hk' : 0 <= k') by nia. destruct (Z_le_gt_dec c k') as [X|X]; [exact X|]. exfalso.
    destruct H as [(-> & H)|(-> & H)].
    + assert (k' * k' < k * k) by nia. nia.
    + assert (k' * k' <= k * k) by nia. nia.
Qed.
Lemma up_ceil q p r : 0 < q -> rounded_up q (ceil_root q (dist2 p r)) p r.
Proof.
  intros Hq. apply up_of_ceil; [exact Hq|]. cbn zeta. unfold ceil_root.
  pose proof (floor_root_spec q (dist2 p r) Hq (dist2_nonneg _ _)) as (_ & K & _).
  destruct (_ =? _) eqn:E; [left; split; [reflexivity|lia]|right; split; [reflexivity|lia]].
Qed.
Lemma up_att q p r : 0 < q -> rounded_up (10 * q) (att q p r) p r.
Proof.
  intros Hq. apply up_of_ceil; [lia|]. cbn zeta. unfold att.
  pose proof (floor_root_spec (10 * q) (dist2 p r) ltac:(lia) (dist2_nonneg _ _)) as (_ & K & _).
  destruct (_ <? _) eqn:E; [right; split; [reflexivity|lia]|left; split; [reflexivity|lia]].
Qed.
Lemma near_round q p r : 0 < q -> rounded q (round_root q (dist2 p r)) p r.
Proof.
  intros Hq. destruct (floor_root_spec q (dist2 p r) Hq (dist2_nonneg _ _)) as (K0 & K1 & K2).
  assert (E4 : dist2 (2 * fst p, 2 * snd p) (2 * fst r, 2 * snd r) = 4 * dist2 p r) by (unfold dist2; cbn [fst snd]; ring).
  unfold rounded, at_most, at_least, round_root. cbn zeta. rewrite !square_dist2, E4, !Z.pow_2_r. set (n := dist2 p r) in *. set (k := floor_root q n) in *. clearbody n k.
  destruct (4 * n <? (2 * k + 1) * (2 * k + 1) * (q * q)) eqn:E1.
  - split; [|split; [nia|lia]]. destruct (Z.eq_dec k 0) as [->|]; [left; nia|]. right. nia.
  - destruct ((2 * k + 1) * (2 * k + 1) * (q * q) <? 4 * n) eqn:E2.
    + split; [right; nia|split; [nia|nia]].
    + destruct (Z.even k).
      * split; [destruct (Z.eq_dec k 0) as [->|]; [left; nia|right; nia]|split; [nia|nia]].
      * split; [right; nia|split; nia].
Qed.

Lemma floor_root_nonneg u n : 0 <= floor_root u n.
Proof. apply Z.sqrt_nonneg. Qed.
Lemma round_root_nonneg u n : 0 <= round_root u n.
Proof. unfold round_root. pose proof (floor_root_nonneg u n). destruct (_ <? _); [lia|]. destruct (_ <? _); [lia|]. destruct (Z.even _); lia. Qed.
Lemma ceil_root_nonneg u n : 0 <= ceil_root u n.
Proof. unfold ceil_root. pose proof (floor_root_nonneg u n). destruct (_ =? _); lia. Qed.
Lemma att_nonneg q a b : 0 <= att q a b.
Proof. unfold att. pose proof (floor_root_nonneg (10 * q) (dist2 a b)). destruct (_ <? _); lia. Qed.

(** ** The matrices *)
Section Mat.
Variable other : text -> point -> point -> Z.
Variable q : Z.
Hypothesis Hq : 0 < q.
Notation CD := (calculate_D other q).

Lemma cd_inv pts t n D : CD pts t = Some (n, D) -> n = length pts /\ exists f, metric other q t = Some f /\
  D = fun i j => if Nat.eqb i j then 0 else f (nth (Nat.min i j) pts (0, 0)) (nth (Nat.max i j) pts (0, 0)).
Proof. unfold calculate_D. destruct (metric other q t) as [f|]; [|discriminate]. cbn. intros H. injection H as <- <-. split; [reflexivity|]. now exists f. Qed.

Lemma cd_shape pts t n D : CD pts t = Some (n, D) -> n = length pts /\ symmetric D /\ forall i, D i i = 0.
Proof.
  intros H. destruct (cd_inv _ _ _ _ H) as (En & f & _ & ->). split; [exact En|]. split.
  - intros i j. rewrite (Nat.eqb_sym j i), (Nat.min_comm j i), (Nat.max_comm j i). reflexivity.
  - intros i. now rewrite Nat.eqb_refl.
Qed.

Definition ours (t : text) : Prop := In t [str "MAX_2D"; str "MAN_2D"; str "CEIL_2D"; str "FLOOR_2D"; str "EUC_2D"; str "ATT"].
Lemma max0 (a : point) : Z.max (Z.abs (fst a - fst a)) (Z.abs (snd a - snd a)) = 0.
Proof. lia. Qed.
Lemma dist2_self a : dist2 a a = 0.
Proof. unfold dist2. ring. Qed.
Lemma root_0 u : 0 < u -> floor_root u 0 = 0.
Proof. intros Hu. unfold floor_root. rewrite Z.div_0_l; [reflexivity|nia]. Qed.
Lemma ceil_0 u : 0 < u -> ceil_root u 0 = 0.
Proof. intros Hu. unfold ceil_root. rewrite root_0 by exact Hu. reflexivity. Qed.
Lemma round_0 u : 0 < u -> round_root u 0 = 0.
Proof.
  intros Hu. unfold round_root. rewrite root_0 by exact Hu. assert (H : 0 < (2 * 0 + 1) * (2 * 0 + 1) * (u * u)) by nia.
  destruct (4 * 0 <? (2 * 0 + 1) * (2 * 0 + 1) * (u * u)) eqn:E; [reflexivity|]. lia.
Qed.
Lemma att_self a : att q a a = 0.
Proof. unfold att. rewrite dist2_self, root_0 by lia. reflexivity. Qed.
Lemma att_sym a b : att q a b = att q b a.
Proof. unfold att. now rewrite (dist2_sym b a). Qed.

Lemma ours_cases t f : ours t -> metric other q (Some t) = Some f ->
  (forall a b, f a b = f b a) /\ (forall a, f a a = 0) /\ (forall a b, 0 <= f a b).
Proof.
  intros H E. cbn [In ours] in H. unfold ours in H. cbn [In] in H.
  repeat (destruct H as [<-|H]; [cbn in E; injection E as <-|]); try destruct H.
  - repeat split; intros; lia.
  - repeat split; intros; lia.
  - repeat split; intros.
    + now rewrite dist2_sym.
    + rewrite dist2_self, ceil_0 by exact Hq. lia.
    + pose proof (ceil_root_nonneg q (dist2 a b)). nia.
  - repeat split; intros.
    + now rewrite dist2_sym.
    + rewrite dist2_self, root_0 by exact Hq. lia.
    + pose proof (floor_root_nonneg q (dist2 a b)). nia.
  - repeat split; intros.
    + now rewrite dist2_sym.
    + rewrite dist2_self, round_0 by exact Hq. lia.
    + pose proof (round_root_nonneg q (dist2 a b)). nia.
  - repeat split; intros.
    + now rewrite att_sym.
    + rewrite att_self. lia.
    + pose proof (att_nonneg q a b). nia.
Qed.

(** the entry of two points *)
Lemma cd_entry pts t n D : ours t -> CD pts (Some t) = Some (n, D) ->
  exists f, metric other q (Some t) = Some f /\ forall i j, D i j = f (nth i pts (0, 0)) (nth j pts (0, 0)).
Proof.
  intros Ht H. destruct (cd_inv _ _ _ _ H) as (_ & f & Ef & ->). exists f. split; [exact Ef|].
  destruct (ours_cases t f Ht Ef) as (F1 & F2 & _). intros i j. destruct (Nat.eqb i j) eqn:E.
  - apply Nat.eqb_eq in E. subst j. now rewrite F2.
  - destruct (Nat.le_ge_cases i j) as [X|X].
    + now rewrite Nat.min_l, Nat.max_r by exact X.
    + rewrite Nat.min_r, Nat.max_l by exact X. apply F1.
Qed.
Lemma cd_nonneg pts t n D : ours t -> CD pts (Some t) = Some (n, D) -> nonneg_matrix D.
Proof.
  intros Ht H. destruct (cd_entry _ _ _ _ Ht H) as (f & Ef & E). destruct (ours_cases t f Ht Ef) as (_ & _ & F3). intros i j. rewrite E. apply F3.
Qed.

Lemma max_entry pts n D i j : CD pts (Some (str "MAX_2D")) = Some (n, D) ->
  D i j = Z.max (Z.abs (fst (nth i pts (0, 0)) - fst (nth j pts (0, 0)))) (Z.abs (snd (nth i pts (0, 0)) - snd (nth j pts (0, 0)))).
Proof. intros H. destruct (cd_entry pts (str "MAX_2D") n D ltac:(unfold ours; cbn [In]; tauto) H) as (f & Ef & E). cbn in Ef. injection Ef as <-. apply E. Qed.
Lemma man_entry pts n D i j : CD pts (Some (str "MAN_2D")) = Some (n, D) ->
  D i j = Z.abs (fst (nth i pts (0, 0)) - fst (nth j pts (0, 0))) + Z.abs (snd (nth i pts (0, 0)) - snd (nth j pts (0, 0))).
Proof. intros H. destruct (cd_entry pts (str "MAN_2D") n D ltac:(unfold ours; cbn [In]; tauto) H) as (f & Ef & E). cbn in Ef. injection Ef as <-. apply E. Qed.
Lemma ceil_entry pts n D i j : CD pts (Some (str "CEIL_2D")) = Some (n, D) ->
  exists k, D i j = q * k /\ rounded_up q k (nth i pts (0, 0)) (nth j pts (0, 0)).
Proof. intros H. destruct (cd_entry pts (str "CEIL_2D") n D ltac:(unfold ours; cbn [In]; tauto) H) as (f & Ef & E). cbn in Ef. injection Ef as <-. rewrite E. eexists. split; [reflexivity|]. now apply up_ceil. Qed.
Lemma floor_entry pts n D i j : CD pts (Some (str "FLOOR_2D")) = Some (n, D) ->
  exists k, D i j = q * k /\ rounded_down q k (nth i pts (0, 0)) (nth j pts (0, 0)).
Proof. intros H. destruct (cd_entry pts (str "FLOOR_2D") n D ltac:(unfold ours; cbn [In]; tauto) H) as (f & Ef & E). cbn in Ef. injection Ef as <-. rewrite E. eexists. split; [reflexivity|]. now apply down_floor. Qed.
Lemma euc_entry pts n D i j : CD pts (Some (str "EUC_2D")) = Some (n, D) ->
  exists k, D i j = q * k /\ 0 <= k /\ rounded q k (nth i pts (0, 0)) (nth j pts (0, 0)).
Proof. intros H. destruct (cd_entry pts (str "EUC_2D") n D ltac:(unfold ours; cbn [In]; tauto) H) as (f & Ef & E). cbn in Ef. injection Ef as <-. rewrite E. eexists. split; [reflexivity|]. split; [apply round_root_nonneg|]. now apply near_round. Qed.
Lemma att_entry pts n D i j : CD pts (Some (str "ATT")) = Some (n, D) ->
  exists k, D i j = q * k /\ rounded_up (10 * q) k (nth i pts (0, 0)) (nth j pts (0, 0)).
Proof. intros H. destruct (cd_entry pts (str "ATT") n D ltac:(unfold ours; cbn [In]; tauto) H) as (f & Ef & E). cbn in Ef. injection Ef as <-. rewrite E. eexists. split; [reflexivity|]. now apply up_att. Qed.

Lemma up_triangle u k1 k2 k3 p m r : 0 < u -> rounded_up u k1 p r -> rounded_up u k2 p m -> rounded_up u k3 m r -> k1 <= k2 + k3.
Proof.
  intros Hu (_ & H1) (H2 & _) (H3 & _). apply H1. pose proof (least_add _ _ _ _ _ H2 H3) as H. now replace (u * (k2 + k3)) with (u * k2 + u * k3) by ring.
Qed.
Lemma down_less k p r : rounded_down q k p r -> at_least (q * (k + 1)) p r /\ square p r < (q * (k + 1)) * (q * (k + 1)).
Proof.
  intros (H1 & H2). assert (Hk : 0 <= k) by (apply H2; right; rewrite Z.mul_0_r, square_dist2; cbn; apply dist2_nonneg).
  assert (X : square p r < (q * (k + 1)) * (q * (k + 1))).
  { destruct (Z_lt_le_dec (square p r) ((q * (k + 1)) * (q * (k + 1)))) as [X|X]; [exact X|].
    assert (k + 1 <= k) by (apply H2; right; now rewrite Z.pow_2_r). lia. }
  split; [|exact X]. split; [nia|]. rewrite Z.pow_2_r. lia.
Qed.

Lemma triangles pts t n D : In t [str "MAX_2D"; str "MAN_2D"; str "CEIL_2D"; str "ATT"] -> CD pts (Some t) = Some (n, D) -> triangle D.
Proof.
  intros Ht H i k j. cbn [In] in Ht. destruct Ht as [<-|[<-|[<-|[<-|[]]]]].
  - rewrite !(max_entry _ _ _ _ _ H). lia.
  - rewrite !(man_entry _ _ _ _ _ H). lia.
  - destruct (ceil_entry _ _ _ i j H) as (k1 & -> & H1), (ceil_entry _ _ _ i k H) as (k2 & -> & H2), (ceil_entry _ _ _ k j H) as (k3 & -> & H3).
    assert (k1 <= k2 + k3) by now apply (up_triangle q k1 k2 k3 _ _ _ Hq H1 H2 H3). nia.
  - destruct (att_entry _ _ _ i j H) as (k1 & -> & H1), (att_entry _ _ _ i k H) as (k2 & -> & H2), (att_entry _ _ _ k j H) as (k3 & -> & H3).
    assert (k1 <= k2 + k3) by (apply (up_triangle (10 * q) k1 k2 k3 _ _ _ ltac:(lia) H1 H2 H3)). nia.
Qed.
Lemma almost_triangles pts t n D i j k : In t [str "FLOOR_2D"; str "EUC_2D"] -> CD pts (Some t) = Some (n, D) -> D i j <= D i k + D k j + q.
Proof.
  intros Ht H. cbn [In] in Ht. destruct Ht as [<-|[<-|[]]].
  - destruct (floor_entry _ _ _ i j H) as (k1 & -> & H1), (floor_entry _ _ _ i k H) as (k2 & -> & H2), (floor_entry _ _ _ k j H) as (k3 & -> & H3).
    apply down_less in H2, H3. destruct H2 as (A2 & B2), H3 as (A3 & B3). pose proof (square_add _ _ _ _ _ A2 A3) as X. destruct A2 as (A2 & _), A3 as (A3 & _).
    assert (Y : square (nth i pts (0, 0)) (nth j pts (0, 0)) < (q * (k2 + k3 + 2)) * (q * (k2 + k3 + 2))) by nia.
    assert (K2 : -1 <= k2) by nia. assert (K3 : -1 <= k3) by nia.
    destruct H1 as ([H1|H1] & _); [assert (k1 <= -1) by nia; nia|]. rewrite Z.pow_2_r in H1.
    destruct (Z_lt_le_dec k1 (k2 + k3 + 2)) as [W|W]; [assert (k1 <= k2 + k3 + 1) by lia; nia|]. exfalso.
    assert (q * (k2 + k3 + 2) <= q * k1) by nia. nia.
  - destruct (euc_entry _ _ _ i j H) as (k1 & -> & _ & H1), (euc_entry _ _ _ i k H) as (k2 & -> & _ & H2), (euc_entry _ _ _ k j H) as (k3 & -> & _ & H3).
    destruct H1 as (H1 & _), H2 as (_ & H2), H3 as (_ & H3). pose proof (most_least _ _ _ _ H1 (least_add _ _ _ _ _ H2 H3)) as X.
    assert (2 * k1 - 1 <= 2 * k2 + 1 + (2 * k3 + 1)) by nia. nia.
Qed.
End Mat.
