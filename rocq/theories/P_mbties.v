(** * Proofs about the choice among equal savings *)
From Coq Require Import ZifyBool ZifyNat.
From Verif Require Import Spec Spec_mbsa Spec_mbties PyBase M_mbsa P_base P_mbsa.

Definition le2 (a b : Z * Z * (nat * nat)) : Prop :=
  fst (fst a) < fst (fst b) \/ fst (fst a) = fst (fst b) /\ snd (fst a) <= snd (fst b).
Lemma le2_trans a b c : le2 a b -> le2 b c -> le2 a c.
Proof. unfold le2. lia. Qed.
Lemma tuple_lt_le2 a b : if tuple_lt a b then le2 a b else le2 b a.
Proof.
  destruct a as [[w v] [i j]], b as [[w' v'] [i' j']]. unfold tuple_lt, le2. cbn [fst snd].
  destruct (w <? w') eqn:E1; [lia|]. destruct (w' <? w) eqn:E2; [lia|]. destruct (v <? v') eqn:E3; [lia|]. destruct (v' <? v) eqn:E4; [lia|].
  destruct (i <? i')%nat; [lia|]. destruct (i' <? i)%nat; [lia|]. destruct (j <? j')%nat; lia.
Qed.
Lemma tuple_max_le2 : forall l a, le2 a (tuple_max a l) /\ forall b, In b l -> le2 b (tuple_max a l).
Proof.
  induction l as [|c l IH]; intros a; cbn [tuple_max]; [split; [unfold le2; lia|easy]|].
  destruct (IH (if tuple_lt a c then c else a)) as [H1 H2]. pose proof (tuple_lt_le2 a c) as H3.
  destruct (tuple_lt a c).
  - split; [now apply (le2_trans _ c)|]. intros b [<-|Hb]; [exact H1|auto].
  - split; [exact H1|]. intros b [<-|Hb]; [now apply (le2_trans _ a)|auto].
Qed.

Lemma add_at_length l i v : length (add_at l i v) = length l.
Proof. unfold add_at. generalize (nth i l 0 + v). revert i. induction l as [|a l IH]; intros [|i] z; cbn; try reflexivity. now rewrite IH. Qed.
Lemma nth_add_at : forall l i v k, (i < length l)%nat -> nth k (add_at l i v) 0 = nth k l 0 + if Nat.eqb i k then v else 0.
Proof.
  unfold add_at. induction l as [|a l IH]; intros [|i] v [|k] H; cbn in *; try lia.
  rewrite IH by lia. reflexivity.
Qed.

Lemma totals k : forall sv t, pairs_of (length t) sv ->
  nth k (fold_left (fun t e => add_at (add_at t (fst (snd e)) (fst e)) (snd (snd e)) (fst e)) sv t) 0 = nth k t 0 + saved_with sv k.
Proof.
  induction sv as [|[w [i j]] sv IH]; intros t H; [cbn; lia|]. cbn [fold_left fst snd]. inversion H as [|? ? (H1 & H2 & H3) H']; subst. cbn [fst snd] in *.
  rewrite IH by now rewrite !add_at_length. rewrite !nth_add_at by (rewrite ?add_at_length; assumption).
  unfold saved_with. cbn [filter fst snd]. destruct (Nat.eqb_spec i k), (Nat.eqb_spec j k); cbn [orb map sumZ fst]; try lia.
  all: unfold sumZ; cbn [fold_right]; lia.
Qed.

Lemma secondary_given_up sv n : pairs_of n sv -> secondary_criteria sv n = map (fun e => - given_up sv e) sv.
Proof.
  intros H. unfold secondary_criteria. apply map_ext. intros e. unfold given_up.
  assert (Z0 : forall k, nth k (repeat 0 n) 0 = 0) by (intros k; destruct (nth_in_or_default k (repeat 0 n) 0) as [X|X]; [now apply repeat_spec in X|exact X]).
  rewrite !totals by now rewrite repeat_length. rewrite !Z0. lia.
Qed.

Lemma combine_map3 {A B C E} (f : E -> A) (g : E -> B) (h : E -> C) l :
  combine (combine (map f l) (map g l)) (map h l) = map (fun e => (f e, g e, h e)) l.
Proof. induction l as [|e l IH]; [reflexivity|]. cbn. now rewrite IH. Qed.
Lemma chosen_map {A B} (h : A -> B) : forall x l, chosen x (map h l) = map h (chosen x l).
Proof. induction x as [|b x IH]; intros [|a l]; try reflexivity. cbn. destruct b; cbn; now rewrite IH. Qed.

Lemma ties_spec mm sv n x w i j : pairs_of n sv -> mm sv n = MipOptimal x -> mmp_solve mm true sv n = MmBest w i j ->
  In (w, (i, j)) (picked x sv) /\
  forall e, In e (picked x sv) -> fst e < w \/ fst e = w /\ given_up sv (w, (i, j)) <= given_up sv e.
Proof.
  intros HP Hx H. unfold mmp_solve in H. rewrite Hx, (secondary_given_up _ _ HP), combine_map3, chosen_map in H.
  rewrite <- chosen_picked. set (h := fun e : Z * (nat * nat) => (fst e, - given_up sv e, snd e)) in *.
  destruct (map h (chosen x sv)) as [|a t] eqn:E; [discriminate|].
  pose proof (tuple_max_le2 t a) as [M1 M2]. pose proof (tuple_max_in t a) as Hin.
  assert (HI : In (tuple_max a t) (map h (chosen x sv))) by (rewrite E; destruct Hin as [->|Hin]; [now left|now right]).
  apply in_map_iff in HI as (e0 & E0 & He0). destruct (tuple_max a t) as [[w0 v0] [i0 j0]] eqn:Et. injection H as -> -> ->.
  unfold h in E0. injection E0 as E1 E2 E3. assert (e0 = (w, (i, j))) as -> by (destruct e0; cbn in *; congruence). split; [exact He0|].
  intros e He. assert (L : le2 (h e) (w, v0, (i, j))).
  { assert (In (h e) (a :: t)) as [<-|X] by (rewrite <- E; now apply in_map); [exact M1|now apply M2]. }
  unfold le2, h in L. cbn [fst snd] in L. lia.
Qed.
