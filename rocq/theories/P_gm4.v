(** * Gillett and Miller's sweep ends when tours of fewer customers are no longer *)
From Verif Require Import Spec Spec_rfcs Spec_inter Spec_savings Spec_sweep Spec_gm PyBase P_base M_util M_psavings M_ssavings M_savfam M_nn M_sweep M_gm P_sweep P_sweep2 P_sweep3 P_sweep4 P_ssavings P_gm P_gm2 P_gm3.
From Coq Require Import ZifyBool ZifyNat Lia Arith List Permutation.
Import ListNotations.
Local Open Scope Z_scope.

(** ** Sets of positions as binary numbers *)
Fixpoint val (g : nat -> bool) (n : nat) : nat :=
  match n with O => O | S n' => (2 * val g n' + (if g n' then 1 else 0))%nat end.
Lemma val_bound g n : (val g n < 2 ^ n)%nat.
Proof. induction n as [|n IH]; cbn [val Nat.pow]; [lia|]. destruct (g n); lia. Qed.
Lemma val_ext g h n : (forall i, (i < n)%nat -> g i = h i) -> val g n = val h n.
Proof. induction n as [|n IH]; intros H; [reflexivity|]. cbn [val]. rewrite IH by (intros i Hi; apply H; lia). now rewrite (H n) by lia. Qed.
Lemma val_lt g h k n : (k < n)%nat -> (forall i, (i < k)%nat -> g i = h i) -> g k = true -> h k = false -> (val h n < val g n)%nat.
Proof.
  intros Hk H1 H2 H3. induction n as [|n IH]; [lia|]. cbn [val]. destruct (Nat.eq_dec k n) as [->|Hn].
  - rewrite (val_ext g h n H1), H2, H3. lia.
  - assert (G := IH ltac:(lia)). destruct (g n), (h n); lia.
Qed.

(** ** Lexicographic order as numbers *)
Definition enc (K a b v u : nat) : nat := ((a * K + b) * K + v) * K + u.
Lemma enc_lt K a b v u a' b' v' u' : (b < K)%nat -> (v < K)%nat -> (u < K)%nat -> (b' < K)%nat -> (v' < K)%nat -> (u' < K)%nat ->
  (a' < a)%nat \/ a' = a /\ ((b' < b)%nat \/ b' = b /\ ((v' < v)%nat \/ v' = v /\ (u' < u)%nat)) -> (enc K a' b' v' u' < enc K a b v u)%nat.
Proof.
  intros. unfold enc.
  assert (S1 : forall x y y' x', (y < K)%nat -> (y' < K)%nat -> (x' < x)%nat -> (x' * K + y' < x * K + y)%nat).
  { intros. assert ((x' + 1) * K <= x * K)%nat by (apply Nat.mul_le_mono_r; lia). lia. }
  destruct H5 as [Ha|(-> & [Hb|(-> & [Hv|(-> & Hu)])])].
  - apply S1; try assumption. apply S1; try assumption. apply S1; assumption.
  - apply S1; try assumption. apply S1; try assumption. lia.
  - apply S1; try assumption. lia.
  - lia.
Qed.

Lemma filter_le {A} (p q : A -> bool) l : (forall x, In x l -> p x = true -> q x = true) -> (length (filter p l) <= length (filter q l))%nat.
Proof.
  induction l as [|a l IH]; intros H; [reflexivity|]. cbn [filter]. assert (G := IH (fun x Hx => H x (or_intror Hx))).
  destruct (p a) eqn:E; [rewrite (H a (or_introl eq_refl) E); cbn; lia|]. destruct (q a); cbn; lia.
Qed.
Lemma filter_lt {A} (p q : A -> bool) l y : In y l -> p y = false -> q y = true -> (forall x, In x l -> p x = true -> q x = true) -> (length (filter p l) < length (filter q l))%nat.
Proof.
  intros Hy Hp Hq H. apply in_split in Hy. destruct Hy as (a & b & ->). rewrite !filter_app, !app_length. cbn [filter]. rewrite Hp, Hq. cbn [length].
  assert (G1 := filter_le p q a ltac:(intros x Hx; apply H, in_or_app; now left)).
  assert (G2 := filter_le p q b ltac:(intros x Hx; apply H, in_or_app; right; now right)). lia.
Qed.
Lemma min_index (P : nat -> Prop) (dec : forall i, {P i} + {~ P i}) : forall n, (exists i, (i <= n)%nat /\ P i) -> exists i, (i <= n)%nat /\ P i /\ forall j, (j < i)%nat -> ~ P j.
Proof.
  induction n as [|n IH]; intros (i & Hi & HP).
  - exists i. split; [exact Hi|]. split; [exact HP|]. intros; lia.
  - destruct (dec i) as [_|E]; [|easy].
    assert (Hex : (exists i, (i <= n)%nat /\ P i) \/ ~ exists i, (i <= n)%nat /\ P i).
    { clear - dec. induction n as [|n IH].
      - destruct (dec 0%nat) as [H|H]; [left; exists 0%nat; auto|]. right. intros (i & Hi & G). assert (i = 0%nat) by lia. subst. easy.
      - destruct IH as [(i & Hi & G)|H]; [left; exists i; split; [lia|exact G]|]. destruct (dec (S n)) as [G|G]; [left; exists (S n); auto|].
        right. intros (i & Hi & G'). destruct (Nat.eq_dec i (S n)) as [->|Hne]; [easy|]. apply H. exists i. split; [lia|exact G']. }
    destruct Hex as [Hex|Hex].
    + destruct (IH Hex) as (j & Hj & H1 & H2). exists j. split; [lia|]. auto.
    + exists i. split; [exact Hi|]. split; [exact HP|]. intros j Hj Hn. apply Hex. exists j. split; [lia|exact Hn].
Qed.

Lemma filter_len {A} (p : A -> bool) l : (length (filter p l) <= length l)%nat.
Proof. induction l as [|a l IH]; [reflexivity|]. cbn [filter]. destruct (p a); cbn; lia. Qed.

Section Ends.
Variables ceps seps : Z.
Variable N : nat.
Variable D : matrix.
Variable d : demands.
Variables C L : limit.
Variable f : routing.
Variable order : list nat.
Variable ccw : bool.
Variable callback : swroute -> nat -> (nat -> bool) -> callback_result.
Hypothesis Hf : solver N D f.
Hypothesis Hmono : no_dearer N f.
Hypothesis Halone : served_alone N D d C L ceps seps.
Hypothesis Hnd : NoDup order.
Hypothesis Hcust : forall x, In x order -> (1 <= x < N)%nat.
Hypothesis Hd : forall i, (1 <= i < N)%nat -> 0 <= d i.
Notation len := (length order).
Hypothesis Hcb : forall routed r pos, (pos < len)%nat -> sr_set r <> [] -> NoDup (sr_set r) -> incl (sr_set r) order ->
  carries d C r -> (forall x, In x (sr_set r) -> routed x = true) -> routed 0%nat = true ->
  contract ceps seps D d C L order f routed r (node_at order pos) (callback r pos routed).
Notation gm_inv := (gm_inv ceps seps D d C L order).
Notation circ s := (circle ccw order s).
Notation posn s t := (Nat.iter t (sw_step ccw (len - 1)) s).
Notation nd s i := (nth i (circle ccw order s) 0%nat).

Lemma at_posn s t : (s < len)%nat -> (t < len)%nat -> node_at order (posn s t) = nd s t.
Proof. intros. symmetry. apply circle_nth; assumption. Qed.
Lemma coord s x : (s < len)%nat -> In x order -> exists i, (i < len)%nat /\ x = nd s i.
Proof.
  intros Hs Hx. assert (G := Permutation_in x (Permutation_sym (circle_perm ccw order s)) Hx).
  destruct (In_nth _ _ 0%nat G) as (i & Hi & Ei). exists i. split; [|now symmetry]. rewrite (Permutation_length (circle_perm ccw order s)) in Hi. exact Hi.
Qed.
Lemma nd_inj s i j : (i < len)%nat -> (j < len)%nat -> nd s i = nd s j -> i = j.
Proof.
  intros Hi Hj E. assert (G := Permutation_NoDup (Permutation_sym (circle_perm ccw order s)) Hnd).
  apply (proj1 (NoDup_nth _ 0%nat) G); [| |exact E]; rewrite (Permutation_length (circle_perm ccw order s)); assumption.
Qed.
Lemma nd_in s i : (i < len)%nat -> In (nd s i) order.
Proof. intros Hi. apply (Permutation_in _ (circle_perm ccw order s)), nth_In. rewrite (Permutation_length (circle_perm ccw order s)). exact Hi. Qed.

Lemma all_true_none (p : nat -> bool) : (forall x, In x order -> p x = true) -> forall n start pos, (pos < len)%nat -> snd (next_unrouted order ccw n start pos p) = None.
Proof.
  intros H. induction n as [|n IH]; intros start pos Hp; cbn [next_unrouted].
  - rewrite (H _ (node_at_in order _ (step_lt ccw len pos Hp))). cbn [negb]. destruct (Nat.eqb _ _); reflexivity.
  - rewrite (H _ (node_at_in order _ (step_lt ccw len pos Hp))). cbn [negb]. destruct (Nat.eqb _ _); [reflexivity|]. apply IH, step_lt, Hp.
Qed.
Lemma next_geo s (p : nat -> bool) : (s < len)%nat -> forall n start t, (t < len)%nat -> (forall i, (i <= t)%nat -> p (nd s i) = true) ->
  let '(pos', x) := next_unrouted order ccw n start (posn s t) p in
  x = None \/ exists t', (t < t' < len)%nat /\ pos' = posn s t' /\ forall i, (i < t')%nat -> p (nd s i) = true.
Proof.
  intros Hs. induction n as [|n IH]; intros start t Ht Hall.
  - destruct (le_lt_dec len (S t)) as [Hle|Hlt].
    + assert (G := all_true_none p). assert (G2 : forall x, In x order -> p x = true).
      { intros x Hx. destruct (coord s x Hs Hx) as (i & Hi & ->). apply Hall. lia. }
      specialize (G G2 0%nat start (posn s t) (steps_lt _ _ _ _ Hs)). destruct (next_unrouted _ _ _ _ _ _). left. exact G.
    + cbn [next_unrouted]. change (sw_step ccw (len - 1) (posn s t)) with (posn s (S t)).
      destruct (negb (p _)); [|destruct (Nat.eqb _ _); left; reflexivity]. right. exists (S t). split; [lia|]. split; [reflexivity|]. intros i Hi. apply Hall. lia.
  - destruct (le_lt_dec len (S t)) as [Hle|Hlt].
    + assert (G := all_true_none p). assert (G2 : forall x, In x order -> p x = true).
      { intros x Hx. destruct (coord s x Hs Hx) as (i & Hi & ->). apply Hall. lia. }
      specialize (G G2 (S n) start (posn s t) (steps_lt _ _ _ _ Hs)). destruct (next_unrouted _ _ _ _ _ _). left. exact G.
    + cbn [next_unrouted]. change (sw_step ccw (len - 1) (posn s t)) with (posn s (S t)).
      rewrite (at_posn s (S t) Hs Hlt). destruct (p (nd s (S t))) eqn:Ep; cbn [negb].
      * destruct (Nat.eqb _ _); [left; reflexivity|]. assert (G := IH start (S t) Hlt).
        destruct (next_unrouted _ _ _ _ _ _) as (pos', x). destruct G as [G|(t' & G1 & G2 & G3)].
        -- intros i Hi. destruct (Nat.eq_dec i (S t)) as [->|Hne]; [exact Ep|apply Hall; lia].
        -- left. exact G.
        -- right. exists t'. split; [lia|]. auto.
      * right. exists (S t). split; [lia|]. split; [reflexivity|]. intros i Hi. apply Hall. lia.
Qed.

(** ** The check of L goes back no further than to the first customer added since the last exchange *)
Lemma ensure_geo s T : (s < len)%nat -> NoDup T -> (forall x, In x T -> (1 <= x < N)%nat) -> (T = [] \/ within L seps (snd (f (0%nat :: T)))) ->
  forall fuel t fp r routed fp' r' routed', (t < len)%nat ->
  sr_set r <> [] -> NoDup (sr_set r) -> incl (sr_set r) order -> sr_cost r = snd (f (0%nat :: sr_set r)) ->
  (forall x, In x (sr_set r) -> In x T \/ exists i, (i < t)%nat /\ x = nd s i) ->
  ensure_L seps d C L f order ccw fuel (posn s t) fp r routed = Some (fp', r', routed') ->
  (fp' = fp /\ r' = r) \/
  exists t', (t' < t)%nat /\ fp' = posn s t' /\ In (nd s t') (sr_set r) /\ ~ In (nd s t') (sr_set r') /\ incl (sr_set r') (sr_set r) /\
    (forall x, In x (sr_set r) -> In x (sr_set r') \/ exists i, (t' <= i < t)%nat /\ x = nd s i) /\
    (exists i, (i <= t')%nat /\ In (nd s i) (sr_set r) /\ ~ In (nd s i) T).
Proof.
  intros Hs HT1 HT2 HT3. induction fuel as [|fuel IH]; intros t fp r routed fp' r' routed' Ht Hne Hn Hi Hc HX H; cbn [ensure_L] in H;
    destruct (exceeds L seps (sr_cost r)) eqn:Ex; cbn [negb] in H; try discriminate; [injection H as <- <- <-; left; auto| |injection H as <- <- <-; left; auto].
  assert (Hy : exists y, In y (sr_set r) /\ ~ In y T).
  { destruct (existsb (fun y => negb (mem y T)) (sr_set r)) eqn:E.
    - apply existsb_exists in E. destruct E as (y & H1 & H2). exists y. split; [exact H1|]. apply mem_false. destruct (mem y T); [discriminate|reflexivity].
    - exfalso. assert (Hin : incl (sr_set r) T).
      { intros y Hy. apply mem_in. destruct (mem y T) eqn:E2; [reflexivity|]. assert (G : existsb (fun x => negb (mem x T)) (sr_set r) = true); [|congruence].
        apply existsb_exists. exists y. split; [exact Hy|]. now rewrite E2. }
      destruct HT3 as [->|HT3]; [destruct (sr_set r) as [|a l]; [easy|]; exact (Hin a (or_introl eq_refl))|].
      apply exceeds_true in Ex. apply Ex. rewrite Hc. apply (within_less _ _ _ _ (Hmono _ _ Hne Hn HT1 HT2 Hin) HT3). }
  destruct Hy as (y & Hy1 & Hy2). destruct (HX y Hy1) as [Hy3|(iy & Hiy & Ey)]; [easy|].
  destruct t as [|t]; [lia|]. cbn [Nat.iter nat_rect] in H. change (nat_rect _ _ _ t) with (posn s t) in H. rewrite step_back in H by apply steps_lt, Hs.
  rewrite (at_posn s t Hs ltac:(lia)) in H.
  destruct (mem (nd s t) (sr_set r)) eqn:Em.
  - apply mem_in in Em. set (r1 := mkswr _ _ _ _) in H.
    assert (A2 : NoDup (sr_set r1)) by (apply NoDup_filter, Hn).
    assert (A3 : incl (sr_set r1) (sr_set r)) by (intros x Hx; apply del_in in Hx; apply Hx).
    assert (A4 : incl (sr_set r1) order) by (intros x Hx; apply Hi, A3, Hx).
    assert (Hl : length (sr_set r) = S (length (del (nd s t) (sr_set r)))) by (apply del_length; assumption).
    assert (A1 : sr_set r1 <> []).
    { cbn. intros E. rewrite E in Hl. cbn in Hl. apply exceeds_true in Ex. apply Ex. rewrite Hc.
      destruct (sr_set r) as [|a [|]] eqn:Es; [easy| |discriminate]. assert (Ha : (1 <= a < N)%nat) by (apply Hcust, Hi; now left).
      destruct (Hf [a]) as (l' & El & Hl'); [easy|repeat constructor; easy|intros j [<-|[]]; exact Ha|]. rewrite El. cbn [snd].
      apply Permutation_sym, Permutation_length_1_inv in Hl'. subst l'. apply Halone. exact Ha. }
    destruct (routed_by_f_ok N D f order Hf Hcust r1 A1 A2 A4) as (_ & B2 & _ & B4 & _).
    apply IH in H; try (rewrite B2; assumption); try lia.
    + rewrite B2 in H. destruct H as [(-> & ->)|(t' & G1 & G2 & G3 & G4 & G5 & G6 & (i & G7 & G8 & G9))].
      * right. exists t. rewrite B2. split; [lia|]. split; [reflexivity|]. split; [exact Em|]. split; [intros G; apply del_in in G; easy|].
        split; [exact A3|]. split.
        -- intros x Hx. destruct (Nat.eq_dec x (nd s t)) as [->|Hne']; [right; exists t; split; [lia|reflexivity]|left; apply del_in; auto].
        -- exists iy. split; [lia|]. rewrite <- Ey. auto.
      * right. exists t'. split; [lia|]. split; [exact G2|]. split; [apply A3, G3|]. split; [exact G4|]. split; [intros x Hx; apply A3, G5, Hx|]. split.
        -- intros x Hx. destruct (Nat.eq_dec x (nd s t)) as [->|Hne']; [right; exists t; split; [lia|reflexivity]|].
           destruct (G6 x) as [G|(j & Hj & Ej)]; [apply del_in; auto|left; exact G|right; exists j; split; [lia|exact Ej]].
        -- exists i. split; [exact G7|]. split; [apply A3, G8|exact G9].
    + intros x Hx. rewrite B2 in Hx. apply del_in in Hx. destruct Hx as (Hx & Hxt). destruct (HX x Hx) as [G|(j & Hj & Ej)]; [now left|].
      right. exists j. split; [|exact Ej]. assert (j <> t) by (intros ->; easy). lia.
  - apply mem_false in Em. apply IH in H; try assumption; try lia.
    + destruct H as [H|(t' & G1 & G2 & G3 & G4 & G5 & G6 & G7)]; [left; exact H|]. right. exists t'. split; [lia|]. do 4 (split; [assumption|]). split; [|exact G7].
      intros x Hx. destruct (G6 x Hx) as [G|(j & Hj & Ej)]; [now left|right; exists j; split; [lia|exact Ej]].
    + intros x Hx. destruct (HX x Hx) as [G|(j & Hj & Ej)]; [now left|]. right. exists j. split; [|exact Ej].
      assert (j <> t) by (intros ->; subst x; easy). lia.
Qed.

(** ** The measure *)
Notation K := (2 ^ len + len + 2)%nat.
Definition unblocked (blocked : list nat) : nat := length (filter (fun x => negb (mem x blocked)) order).
Definition kept (s : nat) (T blocked : list nat) : nat := (2 ^ len - val (fun i => mem (nd s i) T && negb (mem (nd s i) blocked)) len)%nat.
Definition free (routed : nat -> bool) (blocked : list nat) : nat := length (filter (fun x => negb (routed x || mem x blocked)) order).

Record geo (gst : gmstate) (s t : nat) (T : list nat) : Prop := {
  ge_s : (s < len)%nat;
  ge_t : (t < len)%nat;
  ge_pos : sw_pos (gm_sw gst) = posn s t;
  ge_swept : forall i, (i < t)%nat -> sw_routed (gm_sw gst) (nd s i) = true \/ In (nd s i) (gm_blocked gst);
  ge_nodup : NoDup T;
  ge_incl : incl T (sr_set (sw_current (gm_sw gst)));
  ge_L : T = [] \/ within L seps (snd (f (0%nat :: T)));
  ge_added : forall x, In x (sr_set (sw_current (gm_sw gst))) -> In x T \/ (~ In x (gm_blocked gst) /\ exists i, (i < t)%nat /\ x = nd s i) }.

Definition measured (gst : gmstate) (rs : list (list nat)) (m : nat) : Prop :=
  gm_inv gst rs /\
  match sw_node (gm_sw gst) with
  | None => m = enc K (len - length (concat rs)) 0 0 0
  | Some _ => exists s t T, geo gst s t T /\
      m = enc K (len - length (concat rs)) (unblocked (gm_blocked gst)) (kept s T (gm_blocked gst)) (free (sw_routed (gm_sw gst)) (gm_blocked gst))
  end.

Lemma unblocked_lt b : (unblocked b < K)%nat.
Proof. unfold unblocked. assert (G := filter_len (fun x => negb (mem x b)) order). lia. Qed.
Lemma kept_lt s T b : (kept s T b < K)%nat.
Proof. unfold kept. lia. Qed.
Lemma free_lt r b : (free r b < K)%nat.
Proof. unfold free. assert (G := filter_len (fun x => negb (r x || mem x b)) order). lia. Qed.
Lemma K_pos : (0 < K)%nat.
Proof. lia. Qed.
Lemma enc_zero a b v u : (0 < u)%nat -> (enc K a 0 0 0 < enc K a b v u)%nat.
Proof.
  intros Hu. unfold enc. generalize K. intros k.
  assert ((a * k + 0) * k <= (a * k + b) * k)%nat by (apply Nat.mul_le_mono_r; lia).
  assert (((a * k + 0) * k + 0) * k <= ((a * k + b) * k + v) * k)%nat by (apply Nat.mul_le_mono_r; lia). lia.
Qed.

Lemma proceed_routed pos node routes routed count r bound blocked :
  sw_routed (gm_sw (gm_proceed D d C L order ccw pos node routes routed count r bound blocked)) =
    match node with Some n => if negb (routed n) then upd routed n true else routed | None => routed end.
Proof.
  unfold gm_proceed. destruct node as [n|]; [destruct (negb (routed n))|]; destruct (next_unrouted _ _ _ _ _ _); reflexivity.
Qed.
Lemma proceed_current pos node routes routed count r bound blocked :
  sr_set (sw_current (gm_sw (gm_proceed D d C L order ccw pos node routes routed count r bound blocked))) =
    match node with Some n => if negb (routed n) then sr_set r ++ [n] else sr_set r | None => sr_set r end.
Proof.
  unfold gm_proceed. destruct node as [n|]; [destruct (negb (routed n))|]; destruct (next_unrouted _ _ _ _ _ _); reflexivity.
Qed.
Lemma proceed_next pos node routes routed count r bound blocked :
  let g := gm_proceed D d C L order ccw pos node routes routed count r bound blocked in
  (sw_pos (gm_sw g), sw_node (gm_sw g)) = next_unrouted order ccw len pos pos (fun x => sw_routed (gm_sw g) x || mem x blocked) /\
  gm_blocked g = match sw_node (gm_sw g) with None => [] | Some _ => blocked end.
Proof.
  cbv zeta. unfold gm_proceed. destruct node as [n|]; [destruct (negb (routed n))|]; destruct (next_unrouted _ _ _ _ _ _) as (pos', node') eqn:E; cbn; rewrite E; auto.
Qed.

Lemma proceed_measured s t T pos node routes routed count r bound blocked rs :
  let g := gm_proceed D d C L order ccw pos node routes routed count r bound blocked in
  gm_inv g rs -> (s < len)%nat -> (t < len)%nat -> pos = posn s t ->
  (forall i, (i < t)%nat -> routed (nd s i) = true \/ In (nd s i) blocked) ->
  (node = Some (nd s t) \/ routed (nd s t) = true \/ In (nd s t) blocked) ->
  NoDup T -> incl T (sr_set r) -> (T = [] \/ within L seps (snd (f (0%nat :: T)))) ->
  (forall x, In x (sr_set r) -> In x T \/ (~ In x blocked /\ exists i, (i < t)%nat /\ x = nd s i)) ->
  (forall x, node = Some x -> x = nd s t /\ (routed x = false -> ~ In x blocked)) ->
  exists m, measured g rs m /\
    (m = enc K (len - length (concat rs)) 0 0 0 \/
     m = enc K (len - length (concat rs)) (unblocked blocked) (kept s T blocked) (free (sw_routed (gm_sw g)) blocked)).
Proof.
  cbv zeta. intros HI Hs Ht Epos H1 H2 HT1 HT2 HT3 HX Hno.
  destruct (proceed_next pos node routes routed count r bound blocked) as (En & Eb).
  assert (Er := proceed_routed pos node routes routed count r bound blocked).
  assert (Ec := proceed_current pos node routes routed count r bound blocked).
  set (g := gm_proceed D d C L order ccw pos node routes routed count r bound blocked) in *.
  assert (Hkeep : forall y, routed y = true -> sw_routed (gm_sw g) y = true).
  { intros y Hy. rewrite Er. destruct node as [n|]; [|exact Hy]. destruct (negb (routed n)); [|exact Hy]. unfold upd. now destruct (Nat.eqb y n). }
  assert (Hall : forall i, (i <= t)%nat -> sw_routed (gm_sw g) (nd s i) || mem (nd s i) blocked = true).
  { intros i Hi. apply Bool.orb_true_iff. destruct (Nat.eq_dec i t) as [->|Hne].
    - destruct H2 as [H2|[H2|H2]]; [|left; apply Hkeep, H2|right; apply mem_in, H2]. left. rewrite Er, H2. destruct (routed (nd s t)) eqn:E; cbn [negb]; [exact E|]. unfold upd. now rewrite Nat.eqb_refl.
    - destruct (H1 i ltac:(lia)) as [G|G]; [left; apply Hkeep, G|right; apply mem_in, G]. }
  assert (Hg := next_geo s (fun x => sw_routed (gm_sw g) x || mem x blocked) Hs len pos t Ht Hall). rewrite <- Epos, <- En in Hg.
  destruct (sw_node (gm_sw g)) as [y|] eqn:Ey.
  - destruct Hg as [Hg|(t' & G1 & G2 & G3)]; [discriminate|].
    exists (enc K (len - length (concat rs)) (unblocked (gm_blocked g)) (kept s T (gm_blocked g)) (free (sw_routed (gm_sw g)) (gm_blocked g))).
    split; [|right; now rewrite Eb]. split; [exact HI|]. rewrite Ey. exists s, t', T. split; [|reflexivity].
    constructor; try assumption; try lia.
    + intros i Hi. specialize (G3 i Hi). rewrite Eb. apply Bool.orb_true_iff in G3. destruct G3 as [G|G]; [now left|right; apply mem_in, G].
    + intros x Hx. rewrite Ec. apply HT2 in Hx. destruct node as [n|]; [|exact Hx]. destruct (negb (routed n)); [|exact Hx]. apply in_or_app. now left.
    + intros x Hx. rewrite Ec in Hx. rewrite Eb.
      assert (Hold : In x (sr_set r) -> In x T \/ ~ In x blocked /\ (exists i, (i < t')%nat /\ x = nd s i)).
      { intros G. destruct (HX x G) as [G'|(G' & i & Hi & Ei)]; [now left|right]. split; [exact G'|]. exists i. split; [lia|exact Ei]. }
      destruct node as [n|]; [|exact (Hold Hx)]. destruct (routed n) eqn:Ern; cbn [negb] in Hx; [exact (Hold Hx)|].
      apply in_app_or in Hx. destruct Hx as [Hx|[<-|[]]]; [exact (Hold Hx)|]. right. destruct (Hno n eq_refl) as (En' & Hb). split; [exact (Hb Ern)|]. exists t. split; [lia|exact En'].
  - exists (enc K (len - length (concat rs)) 0 0 0). split; [|left; reflexivity]. split; [exact HI|]. now rewrite Ey.
Qed.

(** ** Each iteration decreases it *)
Lemma measured_bound gst rs m : measured gst rs m -> sw_node (gm_sw gst) <> None ->
  exists s t T, geo gst s t T /\ m = enc K (len - length (concat rs)) (unblocked (gm_blocked gst)) (kept s T (gm_blocked gst)) (free (sw_routed (gm_sw gst)) (gm_blocked gst)) /\
    (0 < free (sw_routed (gm_sw gst)) (gm_blocked gst))%nat.
Proof.
  intros (HI & Hm) Hn. destruct (sw_node (gm_sw gst)) as [x|] eqn:Ex; [|easy]. destruct Hm as (s & t & T & G & ->). exists s, t, T. split; [exact G|]. split; [reflexivity|].
  destruct HI as [[M1 M2 M3 M4 M5 M6 M7] H0 Hp Hno Hbl]. rewrite Ex in Hno. destruct Hno as (_ & Hx & Hx1 & Hx2).
  assert (HxO : In x order) by (rewrite Hx; apply node_at_in, Hp).
  unfold free. assert (Hin : In x (filter (fun y => negb (sw_routed (gm_sw gst) y || mem y (gm_blocked gst))) order)).
  { apply filter_In. split; [exact HxO|]. rewrite (M4 x HxO). apply mem_false in Hx1, Hx2. now rewrite Hx1, Hx2. }
  destruct (filter _ _); [easy|cbn; lia].
Qed.

Lemma closes_less gst rs g m : measured gst rs m -> closes ceps seps D d C L order ccw (gm_sw gst) rs g -> exists rs' m', measured g rs' m' /\ (m' < m)%nat.
Proof.
  intros Hm (pos & node & routes & routed & count & rs' & -> & H1 & H2 & H3 & H4 & H5).
  assert (HI := closes_inv ceps seps N D d C L order ccw Halone Hnd Hcust pos node routes routed count rs' H1 H2 H3 H4 (proj2 H5)).
  assert (Hlow : forall b v u, (b < K)%nat -> (v < K)%nat -> (u < K)%nat -> (enc K (len - length (concat rs')) b v u < m)%nat).
  { intros b v u Hb Hv Hu. destruct Hm as (_ & Hm). destruct (sw_node (gm_sw gst)).
    - destruct Hm as (s & t & T & _ & ->). apply enc_lt; try assumption; [apply unblocked_lt|apply kept_lt|apply free_lt|]. left. lia.
    - subst m. apply enc_lt; try assumption; try apply K_pos. left. lia. }
  exists rs'. set (g := gm_proceed D d C L order ccw pos node routes routed count sr_new 0 []) in *.
  destruct node as [x|].
  - destruct (proceed_measured pos 0%nat [] pos (Some x) routes routed count sr_new 0 [] rs') as (m' & Hm' & [E|E]).
    + exact HI.
    + exact H3.
    + lia.
    + reflexivity.
    + intros; lia.
    + left. rewrite <- (at_posn pos 0%nat H3 ltac:(lia)). cbn. now rewrite (proj1 H4).
    + constructor.
    + intros y [].
    + now left.
    + intros y [].
    + intros y Ey. injection Ey as <-. rewrite <- (at_posn pos 0%nat H3 ltac:(lia)). split; [apply H4|auto].
    + exists m'. split; [exact Hm'|]. rewrite E. apply Hlow; lia.
    + exists m'. split; [exact Hm'|]. rewrite E. apply Hlow; [apply unblocked_lt|apply kept_lt|apply free_lt].
  - destruct (sw_node (gm_sw g)) as [y|] eqn:Ey.
    + exists (enc K (len - length (concat rs')) (unblocked (gm_blocked g)) (kept (sw_pos (gm_sw g)) [] (gm_blocked g)) (free (sw_routed (gm_sw g)) (gm_blocked g))).
      split; [|apply Hlow; [apply unblocked_lt|apply kept_lt|apply free_lt]]. split; [exact HI|]. rewrite Ey. exists (sw_pos (gm_sw g)), 0%nat, []. split; [|reflexivity].
      assert (Ec : sr_set (sw_current (gm_sw g)) = []) by (exact (proceed_current pos None routes routed count sr_new 0 [])).
      constructor.
      * exact (gi_pos _ _ _ _ _ _ _ _ _ HI).
      * assert (G := gi_pos _ _ _ _ _ _ _ _ _ HI). lia.
      * reflexivity.
      * intros; lia.
      * constructor.
      * intros z [].
      * now left.
      * rewrite Ec. intros z [].
    + exists (enc K (len - length (concat rs')) 0 0 0). split; [|apply Hlow; lia]. split; [exact HI|]. now rewrite Ey.
Qed.

Lemma adds_less gst rs g m : measured gst rs m -> adds ceps D d C L order ccw gst rs g -> exists rs' m', measured g rs' m' /\ (m' < m)%nat.
Proof.
  intros Hm Ha. assert (HIg := adds_inv ceps seps N D d C L order ccw Hnd Hcust gst rs g (proj1 Hm) Ha).
  destruct Ha as (x & bound & Hg & Hx & HC). destruct (measured_bound gst rs m Hm ltac:(congruence)) as (s & t & T & G & -> & Hfr).
  destruct (proj1 Hm) as [[M1 M2 M3 M4 M5 M6 M7] H0 Hp Hno Hbl]. rewrite Hx in Hno. destruct Hno as (_ & Ex & Hx1 & Hx2).
  assert (HxO : In x order) by (rewrite Ex; apply node_at_in, Hp).
  assert (Exn : x = nd s t). { rewrite Ex, (ge_pos _ _ _ _ G). apply at_posn; apply G. }
  exists rs. rewrite Hg in HIg.
  destruct (proceed_measured s t T (sw_pos (gm_sw gst)) (Some x) (sw_routes (gm_sw gst)) (sw_routed (gm_sw gst)) (sw_count (gm_sw gst)) (sw_current (gm_sw gst)) bound (gm_blocked gst) rs) as (m' & Hm' & E); try (destruct G; assumption).
  - left. now rewrite Exn.
  - intros y Ey. injection Ey as <-. auto.
  - rewrite <- Hg in Hm', E. exists m'. split; [exact Hm'|]. destruct E as [->| ->]; [apply enc_zero, Hfr|].
    apply enc_lt; [apply unblocked_lt|apply kept_lt|apply free_lt|apply unblocked_lt|apply kept_lt|apply free_lt|]. right. split; [reflexivity|]. right. split; [reflexivity|]. right. split; [reflexivity|].
    rewrite Hg, proceed_routed. assert (Er : sw_routed (gm_sw gst) x = false) by (rewrite (M4 x HxO); apply mem_false, Hx1). rewrite Er. cbn [negb].
    apply filter_lt with x; [exact HxO| | |].
    + unfold upd. now rewrite Nat.eqb_refl.
    + rewrite Er. apply mem_false in Hx2. now rewrite Hx2.
    + intros y _. unfold upd. destruct (Nat.eqb y x); [discriminate|trivial].
Qed.

Lemma after_geo fuel gst rs s t T p r2 routed2 : gm_inv gst rs -> geo gst s t T -> sr_set (sw_current (gm_sw gst)) <> [] -> sw_node (gm_sw gst) <> None ->
  after_L seps d C L f order ccw (gm_sw gst) fuel p r2 routed2 ->
  exists t', (t' <= t)%nat /\ p = posn s t' /\
    (forall x, In x (sr_set (sw_current (gm_sw gst))) -> In x (sr_set r2) \/ exists i, (t' <= i < t)%nat /\ x = nd s i) /\
    exists i, (i <= t')%nat /\ (In (nd s i) (sr_set (sw_current (gm_sw gst))) \/ i = t') /\ ~ In (nd s i) T /\ ~ In (nd s i) (gm_blocked gst).
Proof.
  intros HI G Hne Hnode HA. destruct HI as [[M1 M2 M3 M4 M5 M6 M7] H0 Hp Hno Hbl]. destruct G as [G1 G2 G3 G4 G5 G6 G7 G8].
  destruct (sw_node (gm_sw gst)) as [x|]; [|easy]. destruct Hno as (_ & Ex & Hx1 & Hx2). set (cur := sw_current (gm_sw gst)) in *.
  assert (Hnds : NoDup (sr_set cur)) by (apply NoDup_app_remove_l in M2; exact M2).
  assert (His : incl (sr_set cur) order) by (intros y Hy; apply M3; apply in_or_app; now right).
  assert (Exn : x = nd s t) by (rewrite Ex, G3; apply at_posn; assumption).
  destruct (routed_by_f_ok N D f order Hf Hcust cur Hne Hnds His) as (T1 & T2 & T3 & T4 & T5).
  assert (Hsame : p = posn s t -> r2 = routed_by_f f cur -> exists t', (t' <= t)%nat /\ p = posn s t' /\
    (forall x, In x (sr_set cur) -> In x (sr_set r2) \/ exists i, (t' <= i < t)%nat /\ x = nd s i) /\
    exists i, (i <= t')%nat /\ (In (nd s i) (sr_set cur) \/ i = t') /\ ~ In (nd s i) T /\ ~ In (nd s i) (gm_blocked gst)).
  { intros E1 E2. exists t. split; [lia|]. split; [exact E1|]. split; [intros y Hy; left; rewrite E2, T2; exact Hy|].
    exists t. split; [lia|]. split; [now right|]. rewrite <- Exn. split; [|exact Hx2]. intros Hin. apply Hx1, in_or_app. right. apply G6, Hin. }
  destruct HA as [(_ & E1 & E2 & _)|HA]; [apply Hsame; [rewrite E1; exact G3|exact E2]|].
  rewrite G3 in HA. fold cur in HA. apply (ensure_geo s T) in HA; try assumption; try (rewrite T2; assumption).
  - destruct HA as [(E1 & E2)|(t' & A1 & A2 & A3 & A4 & A5 & A6 & (i & A7 & A8 & A9))]; [now apply Hsame|].
    rewrite T2 in A3, A5, A6, A8. exists t'. split; [lia|]. split; [exact A2|]. split; [exact A6|]. exists i. split; [exact A7|]. split; [now left|]. split; [exact A9|].
    destruct (G8 _ A8) as [G|(G & _)]; [easy|exact G].
  - intros y Hy. apply Hcust, His, G6, Hy.
  - intros y Hy. rewrite T2 in Hy. destruct (G8 y Hy) as [G|(_ & G)]; auto.
Qed.

Lemma swaps_less fuel gst rs g m : measured gst rs m -> swaps ceps seps D d C L f order ccw fuel gst rs g -> exists rs' m', measured g rs' m' /\ (m' < m)%nat.
Proof.
  intros Hm Ha. assert (HIg := swaps_inv ceps seps N D d C L f order ccw Hnd Hcust fuel gst rs g Ha).
  destruct Ha as (p & r2 & routed2 & r' & kii & inc & routed3 & H). cbv zeta in H.
  destruct H as (H1 & H2 & H3 & H4 & H5 & H6 & H7 & H8 & H9 & H10 & H11 & H12 & H13 & H14 & Hg).
  destruct (measured_bound gst rs m Hm H2) as (s & t & T & G & -> & Hfr).
  assert (Hcne : sr_set (sw_current (gm_sw gst)) <> []). { intros E. apply H6 in H8. rewrite E in H8. easy. }
  destruct (after_geo fuel gst rs s t T p r2 routed2 (proj1 Hm) G Hcne H2 H1) as (t' & A1 & A2 & A3 & A4).
  destruct (proj1 Hm) as [[M1 M2 M3 M4 M5 M6 M7] H0 Hp Hno Hbl]. destruct G as [G1 G2 G3 G4 G5 G6 G7 G8].
  set (cur := sw_current (gm_sw gst)) in *. set (B := gm_blocked gst) in *.
  assert (EJ : node_at order p = nd s t') by (rewrite A2; apply at_posn; lia). rewrite EJ in *. set (J := nd s t') in *.
  assert (Hc2 : forall i, (i < t')%nat -> In (nd s i) (sr_set cur) -> In (nd s i) (sr_set r2)).
  { intros i Hi Hin. destruct (A3 _ Hin) as [G|(j & Hj & Ej)]; [exact G|]. apply nd_inj in Ej; lia. }
  destruct H11 as [N1 N2 N3 N4 N5 N6 N7].
  assert (Hnew : forall x, In x (sr_set r') <-> (In x (sr_set r2) /\ x <> kii) \/ In x inc).
  { intros x. rewrite H10. rewrite in_app_iff, del_in. tauto. }
  set (B' := (kii :: (if mem J inc then [] else [J])) ++ B) in *.
  assert (HB : incl B B') by (intros x Hx; unfold B'; apply in_or_app; now right).
  assert (HkB : In kii B') by (unfold B'; now left).
  assert (HJ : In J inc \/ In J B'). { unfold B'. destruct (mem J inc) eqn:E; [left; apply mem_in, E|right]. cbn. auto. }
  assert (Hcost : sr_cost r' = snd (f (0%nat :: sr_set r'))).
  { destruct H7 as (a & b & c & E & _ & _ & _ & _ & _ & _ & _ & _ & _ & E2). injection E as <- _ _ _. exact E2. }
  assert (Hr3 : forall x, In x order -> In x (sr_set r') -> routed3 x = true). { intros x Hx Hin. rewrite (N4 x Hx). apply mem_in, in_or_app. now right. }
  rewrite Hg in HIg. exists rs.
  destruct (proceed_measured s t' (sr_set r') p (if mem J inc then Some J else None) (sw_routes (gm_sw gst)) routed3 (sw_count (gm_sw gst)) r' (sr_cost r') B' rs) as (m' & Hm' & E).
  - exact HIg.
  - exact G1.
  - lia.
  - exact A2.
  - intros i Hi. assert (HiO : In (nd s i) order) by (apply nd_in; lia). destruct (G4 i ltac:(lia)) as [Q|Q]; [|right; apply HB, Q].
    rewrite (M4 _ HiO) in Q. apply mem_in, in_app_or in Q. destruct Q as [Q|Q]; [left; rewrite (N4 _ HiO); apply mem_in, in_or_app; now left|].
    apply (Hc2 i Hi) in Q. destruct (Nat.eq_dec (nd s i) kii) as [E|Hne]; [right; rewrite E; exact HkB|]. left. apply Hr3; [exact HiO|]. apply Hnew. auto.
  - fold J. destruct HJ as [HJ|HJ]; [|auto]. right. left. apply Hr3; [apply nd_in; lia|]. apply Hnew. auto.
  - apply NoDup_app_remove_l in N2. exact N2.
  - apply incl_refl.
  - right. rewrite <- Hcost. exact H14.
  - auto.
  - intros x Hx. destruct (mem J inc) eqn:EJi; [|discriminate]. injection Hx as <-. split; [reflexivity|]. intros Q. rewrite (Hr3 J) in Q; [discriminate|apply nd_in; lia|]. apply Hnew. right. apply mem_in, EJi.
  - rewrite <- Hg in Hm', E. exists m'. split; [exact Hm'|]. destruct E as [->| ->]; [apply enc_zero, Hfr|].
    apply enc_lt; [apply unblocked_lt|apply kept_lt|apply free_lt|apply unblocked_lt|apply kept_lt|apply free_lt|]. right. split; [reflexivity|].
    assert (Hsub : forall x, In x order -> negb (mem x B') = true -> negb (mem x B) = true).
    { intros x _ Q. destruct (mem x B) eqn:E; [|reflexivity]. apply mem_in, HB, mem_in in E. rewrite E in Q. discriminate. }
    assert (HkO : In kii order) by (apply M3, in_or_app; right; apply H6, H8).
    assert (HJO : In J order) by (apply nd_in; lia).
    destruct (mem kii B) eqn:Ek.
    2:{ left. apply filter_lt with kii; [exact HkO| |now rewrite Ek|exact Hsub]. apply mem_in in HkB. now rewrite HkB. }
    destruct (mem J inc || mem J B) eqn:EJ2.
    2:{ left. apply Bool.orb_false_iff in EJ2. destruct EJ2 as (E1 & E2). apply filter_lt with J; [exact HJO| |now rewrite E2|exact Hsub].
        destruct HJ as [HJ|HJ]; [apply mem_in in HJ; congruence|]. apply mem_in in HJ. now rewrite HJ. }
    right. assert (HBB : forall x, mem x B' = mem x B).
    { intros x. unfold B'. destruct (mem x B) eqn:E; [apply mem_in, in_or_app; right; apply mem_in, E|]. apply mem_false. intros Q. apply in_app_or in Q.
      destruct Q as [Q|Q]; [|apply mem_false in E; easy]. destruct Q as [<-|Q]; [congruence|]. destruct (mem J inc) eqn:E3; [destruct Q|]. destruct Q as [<-|[]]. cbn in EJ2. congruence. }
    split. { unfold unblocked. f_equal. apply filter_ext. intros x. now rewrite HBB. }
    left. unfold kept.
    assert (Hdec : forall i, {(In (nd s i) (sr_set cur) \/ i = t') /\ ~ In (nd s i) T /\ ~ In (nd s i) B} + {~ ((In (nd s i) (sr_set cur) \/ i = t') /\ ~ In (nd s i) T /\ ~ In (nd s i) B)}).
    { intros i. destruct (in_dec Nat.eq_dec (nd s i) (sr_set cur)), (Nat.eq_dec i t'), (in_dec Nat.eq_dec (nd s i) T), (in_dec Nat.eq_dec (nd s i) B); tauto. }
    destruct (min_index _ Hdec t' A4) as (k & Hk & (Hk1 & Hk2 & Hk3) & Hmin). clear A4.
    assert (HkB' : In kii B) by (apply mem_in, Ek).
    assert (Hlt : (val (fun i => mem (nd s i) T && negb (mem (nd s i) B)) len < val (fun i => mem (nd s i) (sr_set r') && negb (mem (nd s i) B')) len)%nat).
    { apply val_lt with k; [lia| | |].
      - intros i Hi. cbv beta. rewrite HBB. destruct (mem (nd s i) B) eqn:Eb; [now rewrite !Bool.andb_false_r|]. apply mem_false in Eb. cbn [negb]. rewrite !Bool.andb_true_r.
        assert (HiO : In (nd s i) order) by (apply nd_in; lia).
        assert (Hiff : In (nd s i) (sr_set r') <-> In (nd s i) T).
        { split.
          - intros Q. apply Hnew in Q. destruct Q as [(Q & _)|Q].
            + apply H6 in Q. destruct (in_dec Nat.eq_dec (nd s i) T) as [Q2|Q2]; [exact Q2|]. exfalso. apply (Hmin i Hi). auto.
            + exfalso. destruct (H9 _ Q) as (_ & Q2). destruct (G4 i ltac:(lia)) as [Q3|Q3]; [|easy]. rewrite (M4 _ HiO) in Q3. apply mem_in, in_app_or in Q3.
              rewrite (H5 _ HiO) in Q2. apply mem_false in Q2. apply Q2, in_or_app. destruct Q3 as [Q3|Q3]; [now left|right]. apply Hc2; [lia|exact Q3].
          - intros Q. apply Hnew. left. split; [apply Hc2; [lia|]; apply G6, Q|]. intros E. rewrite E in Eb. easy. }
        destruct (mem (nd s i) (sr_set r')) eqn:Q1, (mem (nd s i) T) eqn:Q2; try reflexivity.
        + apply mem_in, Hiff, mem_in in Q1. congruence.
        + apply mem_in, Hiff, mem_in in Q2. congruence.
      - cbv beta. rewrite HBB. apply mem_false in Hk3 as Hk4. rewrite Hk4. cbn [negb]. rewrite Bool.andb_true_r. apply mem_in, Hnew.
        destruct (Nat.eq_dec k t') as [->|Hne].
        + right. apply mem_in. fold J. fold J in Hk4. rewrite Hk4, Bool.orb_false_r in EJ2. exact EJ2.
        + left. destruct Hk1 as [Hk1|Hk1]; [|easy]. split; [apply Hc2; [lia|exact Hk1]|]. intros E. rewrite E in Hk3. easy.
      - cbv beta. apply mem_false in Hk2. now rewrite Hk2. }
    assert (Hb := val_bound (fun i => mem (nd s i) (sr_set r') && negb (mem (nd s i) B')) len). lia.
Qed.

Lemma gm_loop_ends fuelL : (len * S len <= fuelL)%nat -> forall m gst rs, measured gst rs m -> exists fuel routes, gm_loop ceps seps D d C L f order ccw callback fuelL fuel gst = Some routes.
Proof.
  intros HfL. induction m as [m IH] using (well_founded_induction lt_wf). intros gst rs Hm.
  destruct (iter_cases ceps seps N D d C L f order ccw callback Hf Halone Hnd Hcust Hd Hcb fuelL gst rs HfL (proj1 Hm)) as [(rts & E1 & H1)|(g & E1 & H1)].
  - exists 1%nat, rts. cbn [gm_loop]. now rewrite E1.
  - assert (Hless : exists rs' m', measured g rs' m' /\ (m' < m)%nat).
    { destruct H1 as [H1|[H1|H1]]; [eapply closes_less|eapply adds_less|eapply swaps_less]; eassumption. }
    destruct Hless as (rs' & m' & Hm' & Hlt). destruct (IH m' Hlt g rs' Hm') as (fuel & routes & E). exists (S fuel), routes. cbn [gm_loop]. rewrite E1. exact E.
Qed.

Lemma loop_mono2 : forall fuel fuelL k k' st x, gm_loop ceps seps D d C L f order ccw callback fuelL fuel st = Some x ->
  gm_loop ceps seps D d C L f order ccw callback (fuelL + k) (fuel + k') st = Some x.
Proof.
  induction fuel as [|fuel IH]; intros fuelL k k' st x H; [discriminate|]. cbn [Nat.add gm_loop] in *.
  destruct (gm_iter ceps seps D d C L f order ccw callback fuelL st) as [[routes|st']|] eqn:E; [| |discriminate]; rewrite (gm_iter_mono _ _ _ _ _ _ _ _ _ _ _ k _ _ E).
  - exact H.
  - apply IH, H.
Qed.

Lemma gm_sweep_ends start : (start < len)%nat -> exists fuel0 routes, forall fuel, (fuel0 <= fuel)%nat -> gm_one_sweep ceps seps D d C L f order ccw callback start fuel = Some (Some routes).
Proof.
  intros Hs. destruct (nth_error order start) as [n|] eqn:En; [|apply nth_error_None in En; lia].
  destruct (gm_loop_ends (len * S len) ltac:(lia) (enc K (len - length (concat (@nil (list nat)))) (unblocked []) (kept start [] []) (free (sw_routed (gm_sw (gm_start start n))) [])) (gm_start start n) []) as (fuel & routes & E).
  { split; [exact (start_inv ceps seps N D d C L order Hcust start n En)|]. cbn [gm_start gm_sw sw_node]. exists start, 0%nat, []. split; [|reflexivity].
    constructor; [exact Hs|lia|reflexivity|intros; lia|constructor|intros y []|now left|intros y []]. }
  exists (fuel + len * S len)%nat, routes. intros fuel' Hle. unfold gm_one_sweep. rewrite En. fold (gm_start start n).
  replace (gm_loop ceps seps D d C L f order ccw callback fuel' fuel' (gm_start start n)) with (Some routes); [reflexivity|]. symmetry.
  assert (G := loop_mono2 fuel (len * S len) (fuel' - len * S len) (fuel' - fuel) _ _ E).
  replace (len * S len + (fuel' - len * S len))%nat with fuel' in G by lia. replace (fuel + (fuel' - fuel))%nat with fuel' in G by lia. exact G.
Qed.
End Ends.
