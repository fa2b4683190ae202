(** * Proofs about the petal algorithm: customers served more than once *)
From Verif Require Import Spec Spec_rfcs Spec_inter Spec_savings Spec_petal PyBase P_base M_util M_routedata M_inter P_inter2 P_driver M_petal.
From Coq Require Import ZifyBool ZifyNat Lia Arith List Permutation.
Import ListNotations.
Local Open Scope Z_scope.

Lemma f2_len {A B} (R : A -> B -> Prop) l l' : Forall2 R l l' -> length l = length l'.
Proof. induction 1; cbn; auto. Qed.

Definition is_visit (rs : list (list nat)) (p : nat * nat) (m : nat) : Prop :=
  exists a b, nth_error rs (fst p) = Some (a ++ m :: b) /\ snd p = S (length a).

Lemma nth_map_wrap rs i r : nth_error rs i = Some r -> nth i (map wrap rs) [] = wrap r.
Proof. intros H. apply nth_error_nth. rewrite nth_error_map, H. reflexivity. Qed.

Lemma at_wrap r k m : m <> 0%nat -> (k < length (wrap r))%nat -> at_ (wrap r) k = m -> exists a b, r = a ++ m :: b /\ k = S (length a).
Proof.
  intros Hm Hk H. unfold at_, wrap in *. destruct k as [|k]; [cbn in H; congruence|]. cbn [nth length] in *. rewrite app_length in Hk. cbn in Hk.
  destruct (le_lt_dec (length r) k) as [Hl|Hl].
  - rewrite app_nth2 in H by lia. replace (k - length r)%nat with 0%nat in H by lia. cbn in H. congruence.
  - rewrite app_nth1 in H by lia. destruct (nth_split r 0%nat Hl) as (a & b & E & El). exists a, b. rewrite H in E. split; [exact E|]. now rewrite El.
Qed.
Lemma wrap_at a m b : at_ (wrap (a ++ m :: b)) (S (length a)) = m.
Proof. unfold at_, wrap. cbn [nth]. rewrite <- app_assoc, app_nth2 by lia. now rewrite Nat.sub_diag. Qed.

Lemma visits_in rs m p : m <> 0%nat -> In p (visits (map wrap rs) m) <-> is_visit rs p m.
Proof.
  intros Hm. unfold visits. rewrite in_flat_map. split.
  - intros (i & Hi & Hp). unfold range in Hi. apply in_seq in Hi. rewrite map_length in Hi. apply in_map_iff in Hp. destruct Hp as (k & <- & Hk).
    apply filter_In in Hk. destruct Hk as [Hk E]. unfold range in Hk. apply in_seq in Hk. apply Nat.eqb_eq in E.
    destruct (nth_error rs i) as [r|] eqn:Er; [|apply nth_error_None in Er; lia]. rewrite (nth_map_wrap rs i r Er) in *.
    destruct (at_wrap r k m Hm ltac:(lia) E) as (a & b & -> & ->). exists a, b. cbn. auto.
  - destruct p as [i k]. intros (a & b & E & Ek). cbn in E, Ek. subst k. exists i.
    assert (i < length rs)%nat by (apply nth_error_Some; congruence). split; [unfold range; apply in_seq; rewrite map_length; lia|].
    rewrite (nth_map_wrap rs i _ E). apply in_map. apply filter_In. split; [|apply Nat.eqb_eq, wrap_at].
    unfold range. apply in_seq. unfold wrap. cbn [length]. rewrite !app_length. cbn. lia.
Qed.

Lemma flat_fst_nodup {A} (g : nat -> list A) : forall l, NoDup l -> (forall i, In i l -> (length (g i) <= 1)%nat) ->
  NoDup (map fst (flat_map (fun i => map (pair i) (g i)) l)).
Proof.
  induction l as [|i l IH]; intros Hn Hl; [constructor|]. inversion Hn; subst. cbn [flat_map]. rewrite map_app.
  assert (HL : (length (g i) <= 1)%nat) by (apply Hl; now left).
  assert (IH' : NoDup (map fst (flat_map (fun i => map (pair i) (g i)) l))) by (apply IH; [assumption|intros; apply Hl; now right]).
  destruct (g i) as [|x [|]]; cbn in HL; try lia; [exact IH'|]. cbn. constructor; [|exact IH'].
  intros H. apply in_map_iff in H. destruct H as ((j & y) & E & Hin). cbn in E. subst j. apply in_flat_map in Hin. destruct Hin as (j & Hj & Hin).
  apply in_map_iff in Hin. destruct Hin as (z & E & _). injection E as -> _. contradiction.
Qed.

Lemma all_equal_short (l : list nat) : NoDup l -> (forall x y, In x l -> In y l -> x = y) -> (length l <= 1)%nat.
Proof.
  intros Hn H. destruct l as [|x [|y t]]; cbn; try lia. exfalso. inversion Hn as [|? ? Hx _]; subst. apply Hx. left. symmetry. apply H; cbn; auto.
Qed.

Lemma split_unique (r a b a' b' : list nat) m : NoDup r -> r = a ++ m :: b -> r = a' ++ m :: b' -> a = a' /\ b = b'.
Proof.
  revert r a'. induction a as [|x a IH]; intros r a' Hn E E'; subst r.
  - destruct a' as [|y a']; cbn in E'.
    + injection E' as ->. auto.
    + injection E' as <- ->. cbn in Hn. inversion Hn as [|? ? Hx _]; subst. exfalso. apply Hx. apply in_or_app. right. now left.
  - destruct a' as [|y a']; cbn in E'.
    + injection E' as -> <-. cbn in Hn. inversion Hn as [|? ? Hx _]; subst. exfalso. apply Hx. apply in_or_app. right. now left.
    + injection E' as <- E'. cbn in Hn. inversion Hn; subst. destruct (IH (a ++ m :: b) a') as [-> ->]; auto.
Qed.

Lemma visits_nodup rs m : m <> 0%nat -> Forall (@NoDup nat) rs -> NoDup (map fst (visits (map wrap rs) m)).
Proof.
  intros Hm HN. unfold visits. apply flat_fst_nodup; [apply seq_NoDup|]. intros i Hi. apply all_equal_short; [apply NoDup_filter, seq_NoDup|].
  intros x y Hx Hy. apply filter_In in Hx. apply filter_In in Hy. destruct Hx as [Hx Ex]. destruct Hy as [Hy Ey].
  unfold range in *. apply in_seq in Hx. apply in_seq in Hy. apply Nat.eqb_eq in Ex. apply Nat.eqb_eq in Ey. apply in_seq in Hi. rewrite map_length in Hi.
  destruct (nth_error rs i) as [r|] eqn:Er; [|apply nth_error_None in Er; lia]. rewrite (nth_map_wrap rs i r Er) in *.
  destruct (at_wrap r x m Hm ltac:(lia) Ex) as (a & b & E1 & ->). destruct (at_wrap r y m Hm ltac:(lia) Ey) as (a' & b' & E2 & ->).
  assert (NoDup r). { rewrite Forall_forall in HN. apply HN. eapply nth_error_In, Er. }
  destruct (split_unique r a b a' b' m H E1 E2) as [-> _]. reflexivity.
Qed.

(** ** Deleting one visit *)
Definition put (i : nat) (x : list nat) (rs : list (list nat)) : list (list nat) := firstn i rs ++ x :: skipn (i + 1) rs.

Lemma del_visit_wrap rs p a b m : nth_error rs (fst p) = Some (a ++ m :: b) -> snd p = S (length a) -> del_visit (map wrap rs) p = map wrap (put (fst p) (a ++ b) rs).
Proof.
  intros E Ek. unfold del_visit, put. rewrite (nth_map_wrap _ _ _ E), map_app. cbn [map]. rewrite firstn_map, skipn_map. f_equal. f_equal.
  rewrite Ek. unfold wrap. cbn [firstn skipn Nat.add app]. f_equal. rewrite <- !app_assoc. rewrite firstn_app, firstn_all, Nat.sub_diag. cbn [firstn]. rewrite app_nil_r. f_equal.
  replace (length a + 1)%nat with (length (a ++ [m])) by (rewrite app_length; cbn; lia).
  replace (a ++ (m :: b) ++ [0%nat]) with ((a ++ [m]) ++ b ++ [0%nat]) by (rewrite <- app_assoc; reflexivity).
  rewrite skipn_app, skipn_all, Nat.sub_diag. reflexivity.
Qed.

Lemma nth_error_put i x rs j : (i < length rs)%nat -> nth_error (put i x rs) j = if Nat.eqb j i then Some x else nth_error rs j.
Proof.
  intros Hi. unfold put. assert (Hl : length (firstn i rs) = i) by (rewrite firstn_length; lia).
  destruct (Nat.eqb_spec j i) as [->|Hj].
  - rewrite nth_error_app2 by lia. rewrite Hl, Nat.sub_diag. reflexivity.
  - destruct (le_lt_dec i j) as [H|H].
    + rewrite nth_error_app2 by lia. rewrite Hl. destruct (j - i)%nat as [|k] eqn:Ek; [lia|]. cbn [nth_error].
      rewrite <- (firstn_skipn (i + 1) rs) at 2. rewrite nth_error_app2 by (rewrite firstn_length; lia). f_equal. rewrite firstn_length. lia.
    + rewrite nth_error_app1 by lia. rewrite <- (firstn_skipn i rs) at 2. rewrite nth_error_app1 by lia. reflexivity.
Qed.
Lemma put_length i x rs : (i < length rs)%nat -> length (put i x rs) = length rs.
Proof. intros H. unfold put. rewrite app_length, firstn_length. cbn. rewrite skipn_length. lia. Qed.

Section Del.
Variables (rs : list (list nat)) (p : nat * nat) (a b : list nat) (m : nat).
Hypothesis E : nth_error rs (fst p) = Some (a ++ m :: b).
Hypothesis Ek : snd p = S (length a).
Hypothesis HN : NoDup (a ++ m :: b).
Let rs' := put (fst p) (a ++ b) rs.

Lemma p_lt : (fst p < length rs)%nat.
Proof using E. apply nth_error_Some. congruence. Qed.

Lemma del_same q : is_visit rs' q m <-> is_visit rs q m /\ q <> p.
Proof using E Ek HN.
  unfold is_visit, rs'. rewrite nth_error_put by apply p_lt. destruct (Nat.eqb_spec (fst q) (fst p)) as [Eq|Eq].
  - split.
    + intros (a' & b' & X & _). injection X as X. exfalso. apply NoDup_remove_2 in HN. apply HN. rewrite X. apply in_or_app. right. now left.
    + intros ((a' & b' & X & Y) & Hne). exfalso. apply Hne. rewrite Eq, E in X. injection X as X.
      destruct (split_unique _ a b a' b' m HN eq_refl X) as [-> ->]. destruct q, p. cbn in *. congruence.
  - split; [|tauto]. intros H. split; [exact H|]. intros ->. contradiction.
Qed.

Lemma del_other m' q' : m' <> m -> is_visit rs' q' m' <-> exists q, is_visit rs q m' /\ q' = shift_visit p q.
Proof using E Ek HN.
  intros Hm. unfold is_visit, rs', shift_visit. rewrite nth_error_put by apply p_lt. destruct q' as [i' k']. cbn [fst snd].
  destruct (Nat.eqb_spec i' (fst p)) as [->|Hi].
  - split.
    + intros (a' & b' & X & ->). injection X as X.
      destruct (app_eq_app _ _ _ _ X) as (l & [[-> Hl]|[-> Hl]]).
      * (* in the first part *)
        destruct l as [|y l]; cbn in Hl.
        -- subst b. rewrite app_nil_r in *. exists (fst p, S (S (length a'))). cbn [fst snd]. split.
           ++ exists (a' ++ [m]), b'. split; [rewrite E, <- app_assoc; reflexivity|rewrite app_length; cbn; lia].
           ++ rewrite Nat.eqb_refl. destruct (Nat.ltb_spec (snd p) (S (S (length a')))) as [H|H]; cbn; [f_equal; lia|lia].
        -- injection Hl as <- ->. exists (fst p, S (length a')). cbn [fst snd]. split.
           ++ exists a', (l ++ m :: b). split; [rewrite E, <- app_assoc; reflexivity|reflexivity].
           ++ rewrite Nat.eqb_refl. rewrite app_length in Ek. cbn in Ek. destruct (Nat.ltb_spec (snd p) (S (length a'))) as [H|H]; cbn; [lia|reflexivity].
      * (* in the second part *)
        exists (fst p, S (S (length (a ++ l)))). cbn [fst snd]. split.
        -- exists (a ++ m :: l), b'. split; [rewrite E, Hl, <- app_assoc; reflexivity|rewrite !app_length; cbn; lia].
        -- rewrite Nat.eqb_refl. rewrite app_length. destruct (Nat.ltb_spec (snd p) (S (S (length a + length l)))) as [H|H]; cbn; [f_equal; lia|lia].
    + intros ((i & k) & (a' & b' & X & Y) & Z). cbn [fst snd] in X, Y, Z. subst k.
      destruct (Nat.eqb_spec i (fst p)) as [->|Hi]; [|cbn [andb] in Z; injection Z as Z _; congruence]. rewrite E in X. injection X as X. cbn [andb] in Z.
      destruct (app_eq_app _ _ _ _ X) as (l & [[-> Hl]|[-> Hl]]).
      * destruct l as [|y l]; cbn in Hl; injection Hl as Y1 Y2; [congruence|]. subst y b'.
        exists a', (l ++ b). split; [rewrite <- app_assoc; reflexivity|]. rewrite app_length in Ek. cbn in Ek.
        destruct (Nat.ltb_spec (snd p) (S (length a'))) as [H|H]; [lia|]. injection Z as ->. reflexivity.
      * destruct l as [|y l]; cbn in Hl; injection Hl as Y1 Y2; [congruence|]. subst y b.
        exists (a ++ l), b'. split; [rewrite <- app_assoc; reflexivity|]. rewrite app_length in Z. cbn [length] in Z.
        destruct (Nat.ltb_spec (snd p) (S (length a + S (length l)))) as [H|H]; [|lia]. injection Z as ->. rewrite app_length. lia.
  - split.
    + intros (a' & b' & X & Y). exists (i', k'). cbn [fst snd]. split; [exists a', b'; auto|]. destruct (Nat.eqb_spec i' (fst p)); [contradiction|reflexivity].
    + intros ((i & k) & (a' & b' & X & Y) & Z). cbn [fst snd] in X, Y, Z. destruct (Nat.eqb i (fst p) && _)%bool eqn:Eb; injection Z as -> ->; [|exists a', b'; auto].
      apply andb_prop in Eb. destruct Eb as [Eb _]. apply Nat.eqb_eq in Eb. contradiction.
Qed.
End Del.

(** ** All visits of one customer but one *)
Definition enum (rs : list (list nat)) (m : nat) (sl : list (nat * nat)) : Prop := NoDup (map fst sl) /\ forall q, In q sl <-> is_visit rs q m.

Section Thin.
Variable eps : Z.
Variable D : matrix.
Variable d : demands.
Variables C L : limit.
Hypothesis Htri : triangle D.
Hypothesis Hd : forall n, 0 <= d n.

Definition sub (r r' : list nat) : Prop := (feasible D d C L eps eps r -> feasible D d C L eps eps r') /\ (NoDup r -> NoDup r') /\ incl r' r /\ route_cost D r' <= route_cost D r.
Lemma sub_refl r : sub r r.
Proof using Type. split; [auto|]. split; [auto|]. split; [apply incl_refl|reflexivity]. Qed.
Lemma sub_trans r s t : sub r s -> sub s t -> sub r t.
Proof using Type. intros (A1 & A2 & A3 & A4) (B1 & B2 & B3 & B4). split; [auto|]. split; [auto|]. split; [intros x Hx; auto|etransitivity; eassumption]. Qed.
Lemma sub_del a m b : sub (a ++ m :: b) (a ++ b).
Proof using Htri Hd.
  split; [|split; [|split]].
  - intros H. apply (remove_feasible D d C L eps eps a m b Htri (Hd m)). exact H.
  - apply NoDup_remove_1.
  - intros x Hx. apply in_or_app. apply in_app_or in Hx. destruct Hx; auto. right. now right.
  - apply (remove_shorter D a m b Htri).
Qed.
Lemma sub_all_refl rs : Forall2 sub rs rs.
Proof using Type. induction rs; constructor; auto using sub_refl. Qed.
Lemma sub_all_trans rs ss ts : Forall2 sub rs ss -> Forall2 sub ss ts -> Forall2 sub rs ts.
Proof using Type. intros H. revert ts. induction H; intros ts H2; inversion H2; subst; constructor; eauto using sub_trans. Qed.
Lemma sub_put rs i a m b : nth_error rs i = Some (a ++ m :: b) -> Forall2 sub rs (put i (a ++ b) rs).
Proof using Htri Hd.
  revert i. induction rs as [|r rs IH]; intros i E; [destruct i; discriminate|]. destruct i as [|i]; cbn in E.
  - injection E as ->. unfold put. cbn. constructor; [apply sub_del|apply sub_all_refl].
  - unfold put. cbn. constructor; [apply sub_refl|]. apply IH, E.
Qed.
Lemma sub_nodup rs rs' : Forall2 sub rs rs' -> Forall (@NoDup nat) rs -> Forall (@NoDup nat) rs'.
Proof using Type. induction 1; intros HF; constructor; inversion HF; subst; auto. apply H, H3. Qed.

Lemma shift_fst p q : fst (shift_visit p q) = fst q.
Proof using Type. unfold shift_visit. destruct (_ && _)%bool; reflexivity. Qed.

Lemma enum_shift rs p a b m : nth_error rs (fst p) = Some (a ++ m :: b) -> snd p = S (length a) -> NoDup (a ++ m :: b) ->
  forall m' sl, m' <> m -> enum rs m' sl -> enum (put (fst p) (a ++ b) rs) m' (map (shift_visit p) sl).
Proof using Type.
  intros E Ek HN m' sl Hm [H1 H2]. split.
  - rewrite map_map. erewrite map_ext; [exact H1|]. intros q. apply shift_fst.
  - intros q'. rewrite (del_other rs p a b m E Ek HN m' q' Hm), in_map_iff. split.
    + intros (q & <- & Hq). exists q. split; [now apply H2|reflexivity].
    + intros (q & Hq & ->). exists q. split; [reflexivity|now apply H2].
Qed.

Lemma drop_visits_ok keep n : n <> 0%nat -> forall sl rs ms rest, Forall (@NoDup nat) rs -> NoDup (map fst sl) -> (forall q, In q sl -> is_visit rs q n) ->
  ~ In n ms -> Forall2 (enum rs) ms rest ->
  exists rs' rest', drop_visits keep sl (map wrap rs, rest) = (map wrap rs', rest') /\ Forall2 sub rs rs' /\ Forall2 (enum rs') ms rest' /\
    (forall q, is_visit rs' q n <-> is_visit rs q n /\ (~ In q sl \/ q = keep)) /\
    (forall m, m <> n -> (exists q, is_visit rs q m) <-> (exists q, is_visit rs' q m)) /\
    (forall m, m <> n -> (forall q q', is_visit rs q m -> is_visit rs q' m -> q = q') -> (forall q q', is_visit rs' q m -> is_visit rs' q' m -> q = q')).
Proof using Htri Hd.
  intros Hn0. induction sl as [|p sl IH]; intros rs ms rest HR Hnd Hv Hms He.
  - exists rs, rest. split; [reflexivity|]. split; [apply sub_all_refl|]. split; [exact He|]. split; [intros q; cbn; tauto|]. split; [tauto|auto].
  - cbn [map] in Hnd. inversion Hnd as [|? ? Hp Hnd']; subst. unfold drop_visits. cbn [fold_left fst snd].
    destruct (Nat.eqb (fst keep) (fst p) && Nat.eqb (snd keep) (snd p))%bool eqn:Ekp.
    + assert (keep = p). { apply andb_prop in Ekp. destruct Ekp as [X Y]. apply Nat.eqb_eq in X. apply Nat.eqb_eq in Y. destruct keep, p. cbn in *. congruence. } subst p.
      destruct (IH rs ms rest HR Hnd') as (rs' & rest' & A1 & A2 & A3 & A4 & A5 & A6); auto. { intros q Hq. apply Hv. now right. }
      exists rs', rest'. split; [exact A1|]. do 2 (split; [assumption|]). split; [|auto].
      intros q. rewrite A4. cbn [In]. split; intros [X Y]; (split; [exact X|]).
      * destruct Y as [Y|Y]; [|now right]. assert (Hdec : {q = keep} + {q <> keep}) by (decide equality; apply Nat.eq_dec). destruct Hdec as [->|Hq]; [now right|left; intros [Z|Z]; [congruence|contradiction]].
      * destruct Y as [Y|Y]; [left; tauto|now right].
    + assert (Hpk : p <> keep). { intros ->. rewrite !Nat.eqb_refl in Ekp. discriminate. }
      destruct (Hv p (or_introl eq_refl)) as (a & b & E & Ek). assert (HNr : NoDup (a ++ n :: b)). { rewrite Forall_forall in HR. apply HR. eapply nth_error_In, E. }
      rewrite (del_visit_wrap rs p a b n E Ek). set (rs1 := put (fst p) (a ++ b) rs).
      assert (HS : Forall2 sub rs rs1) by (apply (sub_put rs (fst p) a n b E)).
      assert (Hsame : forall q, is_visit rs1 q n <-> is_visit rs q n /\ q <> p) by (apply (del_same rs p a b n E Ek HNr)).
      destruct (IH rs1 ms (map (map (shift_visit p)) rest)) as (rs' & rest' & A1 & A2 & A3 & A4 & A5 & A6); auto.
      * eapply sub_nodup; eassumption.
      * intros q Hq. apply Hsame. split; [apply Hv; now right|]. intros ->. apply Hp. now apply in_map.
      * clear - He Hms E Ek HNr. induction He as [|m sl' ms rest H He IH]; cbn [map]; constructor; [|apply IH; intros X; apply Hms; now right].
        apply (enum_shift rs p a b n E Ek HNr m sl'); [intros ->; apply Hms; now left|exact H].
      * exists rs', rest'. split; [exact A1|]. split; [eapply sub_all_trans; eassumption|]. split; [exact A3|]. split; [|split].
        -- intros q. rewrite A4, Hsame. cbn [In]. split.
           ++ intros [[X1 X2] Y]. split; [exact X1|]. destruct Y as [Y|Y]; [left; intros [Z|Z]; congruence|now right].
           ++ intros [X Y]. destruct Y as [Y| ->]; [|auto]. split; [split; [exact X|]|]; [intros ->; apply Y; now left|left; tauto].
        -- intros m Hm. rewrite <- (A5 m Hm). split; intros (q & Hq).
           ++ exists (shift_visit p q). apply (del_other rs p a b n E Ek HNr m _ Hm). exists q. auto.
           ++ apply (del_other rs p a b n E Ek HNr m _ Hm) in Hq. destruct Hq as (q0 & Hq0 & _). now exists q0.
        -- intros m Hm HU. apply (A6 m Hm). intros q q' Hq Hq'. apply (del_other rs p a b n E Ek HNr m _ Hm) in Hq. apply (del_other rs p a b n E Ek HNr m _ Hm) in Hq'.
           destruct Hq as (q0 & Hq0 & ->). destruct Hq' as (q0' & Hq0' & ->). now rewrite (HU q0 q0' Hq0 Hq0').
Qed.

Lemma keep_in routes sl : match keep_visit D routes sl with Some k => In k sl | None => sl = [] end.
Proof using Type.
  unfold keep_visit.
  assert (H : forall l best, match best with Some (_, k) => In k sl | None => True end -> incl l sl ->
    match fold_left (fun best p => let delta := visit_delta D routes p in
      match best with Some (b, _) => if b <? delta then Some (delta, p) else best | None => Some (delta, p) end) l best with
    | Some (_, k) => In k sl | None => l = [] /\ best = None end).
  { induction l as [|p l IH]; intros best Hb Hi; cbn [fold_left].
    - destruct best as [[? k]|]; auto.
    - assert (Hp : In p sl) by (apply Hi; now left). assert (Hi' : incl l sl) by (intros x Hx; apply Hi; now right).
      cbv zeta. set (best' := match best with Some (b, _) => if b <? visit_delta D routes p then Some (visit_delta D routes p, p) else best | None => Some (visit_delta D routes p, p) end).
      assert (Hb' : match best' with Some (_, k) => In k sl | None => False end).
      { unfold best'. destruct best as [[b0 k]|]; [destruct (b0 <? _)|]; assumption. }
      specialize (IH best' ltac:(destruct best' as [[? ?]|]; auto) Hi'). destruct (fold_left _ l best') as [[? k]|] eqn:Ef; [exact IH|].
      destruct IH as [_ IH]. rewrite IH in Hb'. easy. }
  specialize (H sl None I (incl_refl _)). destruct (fold_left _ sl None) as [[? k]|]; cbn; tauto.
Qed.

Lemma drop_extra_ok : forall k rs ms todo, (length todo <= k)%nat -> Forall (@NoDup nat) rs -> NoDup ms -> ~ In 0%nat ms -> Forall2 (enum rs) ms todo ->
  (forall m, m <> 0%nat -> ~ In m ms -> forall q q', is_visit rs q m -> is_visit rs q' m -> q = q') ->
  exists rs', drop_extra D k (map wrap rs) todo = map wrap rs' /\ Forall2 sub rs rs' /\
    (forall m, m <> 0%nat -> forall q q', is_visit rs' q m -> is_visit rs' q' m -> q = q') /\
    (forall m, m <> 0%nat -> (exists q, is_visit rs q m) <-> (exists q, is_visit rs' q m)).
Proof using Htri Hd.
  induction k as [|k IH]; intros rs ms todo Hk HR Hms H0 He HU.
  - destruct todo; cbn in Hk; [|lia]. inversion He; subst. exists rs. cbn. split; [reflexivity|]. split; [apply sub_all_refl|]. split; [|tauto]. intros m Hm. apply HU; auto.
  - destruct todo as [|sl todo]; cbn [drop_extra].
    + inversion He; subst. exists rs. split; [reflexivity|]. split; [apply sub_all_refl|]. split; [|tauto]. intros m Hm. apply HU; auto.
    + inversion He as [|n ? ms' ? [Hn1 Hn2] He']; subst. inversion Hms as [|? ? Hn Hms']; subst. cbn in Hk.
      assert (Hn0 : n <> 0%nat) by (intros ->; apply H0; now left).
      pose proof (keep_in (map wrap rs) sl) as HK. destruct (keep_visit D (map wrap rs) sl) as [keep|].
      * destruct (drop_visits_ok keep n Hn0 sl rs ms' todo HR Hn1) as (rs1 & todo1 & A1 & A2 & A3 & A4 & A5 & A6); auto. { intros q Hq. now apply Hn2. }
        rewrite A1. destruct (IH rs1 ms' todo1) as (rs' & B1 & B2 & B3 & B4); auto.
        -- assert (length todo1 = length ms') by (symmetry; eapply f2_len; eassumption).
           assert (length todo = length ms') by (symmetry; eapply f2_len; eassumption). lia.
        -- eapply sub_nodup; eassumption.
        -- intros X. apply H0. now right.
        -- intros m Hm Hmi q q' Hq Hq'. destruct (Nat.eq_dec m n) as [->|Hmn].
           ++ apply A4 in Hq. apply A4 in Hq'. destruct Hq as [Q1 Q2]. destruct Hq' as [Q1' Q2'].
              destruct Q2 as [Q2| ->]; [exfalso; apply Q2, Hn2, Q1|]. destruct Q2' as [Q2'| ->]; [exfalso; apply Q2', Hn2, Q1'|reflexivity].
           ++ revert q q' Hq Hq'. apply (A6 m Hmn). apply HU; [exact Hm|]. intros [X|X]; congruence.
        -- exists rs'. split; [exact B1|]. split; [eapply sub_all_trans; eassumption|]. split; [exact B3|].
           intros m Hm. rewrite <- (B4 m Hm). destruct (Nat.eq_dec m n) as [->|Hmn]; [|apply A5, Hmn]. split.
           ++ intros _. exists keep. apply A4. split; [apply Hn2, HK|now right].
           ++ intros (q & Hq). exists q. apply A4 in Hq. tauto.
      * subst sl. apply (IH rs ms' todo); auto; [lia|intros X; apply H0; now right|].
        intros m Hm Hmi q q' Hq Hq'. destruct (Nat.eq_dec m n) as [->|Hmn]; [apply Hn2 in Hq; easy|]. apply (HU m Hm); auto. intros [X|X]; congruence.
Qed.
End Thin.

(** ** The whole step *)
Lemma twice_spec : forall l seen n, In n (twice seen l) <-> n <> 0%nat /\ (count_occ Nat.eq_dec seen n <= 1)%nat /\ (2 <= count_occ Nat.eq_dec seen n + count_occ Nat.eq_dec l n)%nat.
Proof.
  induction l as [|x l IH]; intros seen n; cbn [twice].
  - cbn. split; [easy|lia].
  - assert (HC : forall m, count_occ Nat.eq_dec (seen ++ [x]) m = (count_occ Nat.eq_dec seen m + (if Nat.eq_dec x m then 1 else 0))%nat).
    { intros m. rewrite count_occ_app. cbn. destruct (Nat.eq_dec x m); reflexivity. }
    cbn [count_occ]. destruct (Nat.eqb_spec x 0) as [->|Hx].
    + rewrite IH. destruct (Nat.eq_dec 0 n); lia.
    + destruct (Nat.eqb_spec (count_occ Nat.eq_dec seen x) 1) as [E|E].
      * cbn [In]. rewrite IH, HC. destruct (Nat.eq_dec x n) as [->|Hn]; [|intuition lia]. split; [intros _; lia|now left].
      * rewrite IH, HC. destruct (Nat.eq_dec x n) as [->|Hn]; lia.
Qed.
Lemma twice_nodup : forall l seen, NoDup (twice seen l).
Proof.
  induction l as [|x l IH]; intros seen; cbn [twice]; [constructor|].
  destruct (Nat.eqb_spec x 0) as [->|Hx]; [apply IH|]. destruct (Nat.eqb_spec (count_occ Nat.eq_dec seen x) 1) as [E|E]; [|apply IH].
  constructor; [|apply IH]. rewrite twice_spec, count_occ_app. cbn. destruct (Nat.eq_dec x x); [lia|congruence].
Qed.
Lemma count_wrap rs n : n <> 0%nat -> count_occ Nat.eq_dec (concat (map wrap rs)) n = count_occ Nat.eq_dec (concat rs) n.
Proof.
  intros Hn. induction rs as [|r rs IH]; [reflexivity|]. cbn [map concat]. rewrite !count_occ_app, IH. f_equal. unfold wrap.
  rewrite count_occ_cons_neq, count_occ_app by congruence. rewrite (count_occ_cons_neq Nat.eq_dec [] (x:=0%nat)) by congruence. cbn [count_occ]. lia.
Qed.
Lemma visit_concat rs m : (exists q, is_visit rs q m) <-> In m (concat rs).
Proof.
  rewrite in_concat. split.
  - intros (q & a & b & E & _). exists (a ++ m :: b). split; [eapply nth_error_In, E|apply in_or_app; right; now left].
  - intros (r & Hr & Hm). apply In_nth_error in Hr. destruct Hr as (i & E). apply in_split in Hm. destruct Hm as (a & b & ->). exists (i, S (length a)), a, b. auto.
Qed.
Lemma two_visits rs m : Forall (@NoDup nat) rs -> forall q q', is_visit rs q m -> is_visit rs q' m -> q <> q' -> (2 <= count_occ Nat.eq_dec (concat rs) m)%nat.
Proof.
  induction 1 as [|r rs Hr HR IH]; intros [i k] [i' k'] (a & b & E & Ek) (a' & b' & E' & Ek') Hq; cbn [fst snd] in *; [destruct i; discriminate|].
  cbn [concat]. rewrite count_occ_app.
  assert (HI : forall j x y, nth_error (r :: rs) (S j) = Some (x ++ m :: y) -> (1 <= count_occ Nat.eq_dec (concat rs) m)%nat).
  { intros j x y X. apply (count_occ_In Nat.eq_dec). apply visit_concat. exists (j, S (length x)), x, y. auto. }
  assert (H0 : forall x y, nth_error (r :: rs) 0 = Some (x ++ m :: y) -> (1 <= count_occ Nat.eq_dec r m)%nat).
  { intros x y X. cbn in X. injection X as ->. apply (count_occ_In Nat.eq_dec). apply in_or_app. right. now left. }
  destruct i as [|i], i' as [|i'].
  - exfalso. apply Hq. cbn in E, E'. injection E as E. injection E' as E'. destruct (split_unique r a b a' b' m Hr E E') as [-> _]. congruence.
  - specialize (H0 _ _ E). specialize (HI _ _ _ E'). lia.
  - specialize (H0 _ _ E'). specialize (HI _ _ _ E). lia.
  - assert (2 <= count_occ Nat.eq_dec (concat rs) m)%nat; [|lia]. apply (IH (i, k) (i', k')); [exists a, b; auto|exists a', b'; auto|congruence].
Qed.
Lemma unique_nodup rs : Forall (@NoDup nat) rs -> (forall m, In m (concat rs) -> forall q q', is_visit rs q m -> is_visit rs q' m -> q = q') -> NoDup (concat rs).
Proof.
  induction 1 as [|r rs Hr HR IH]; intros HU; [constructor|]. cbn [concat] in *. apply NoDup_app_intro; [exact Hr| |].
  - apply IH. intros m Hm [i k] [i' k'] (a & b & E & Ek) (a' & b' & E' & Ek').
    specialize (HU m (in_or_app _ _ _ (or_intror Hm)) (S i, k) (S i', k')). cbn in E, Ek, E', Ek'. subst.
    assert (X : (S i, S (length a)) = (S i', S (length a'))); [|congruence]. apply HU; [exists a, b; auto|exists a', b'; auto].
  - intros m Hm Hm'. assert (Hx := HU m (in_or_app _ _ _ (or_introl Hm))). apply in_split in Hm. destruct Hm as (a & b & ->).
    apply visit_concat in Hm'. destruct Hm' as ([i k] & a' & b' & E & Ek). cbn in E, Ek.
    assert (X : (0%nat, S (length a)) = (S i, k)); [|congruence]. apply Hx; [exists a, b; auto|exists a', b'; auto].
Qed.

Section Remove.
Variable eps : Z.
Variable N : nat.
Variable D : matrix.
Variable d : demands.
Variables C L : limit.
Hypothesis Htri : triangle D.
Hypothesis Hd : forall n, 0 <= d n.

Lemma remove_ok rs : Forall (@NoDup nat) rs -> (forall x, In x (concat rs) -> (1 <= x < N)%nat) -> Forall (feasible D d C L eps eps) rs ->
  exists rs' ok, remove_multiserved N D (map wrap rs) = (map wrap rs', ok) /\ serves_some N D d C L eps rs' /\ length rs' = length rs /\
    (forall x, In x (concat rs') <-> In x (concat rs)) /\ routes_cost D rs' <= routes_cost D rs /\ (ok = true -> serves_all N D d C L eps rs') /\ ((1 <= N)%nat -> (forall x, (1 <= x < N)%nat -> In x (concat rs)) -> ok = true).
Proof using Htri Hd.
  intros HN HR HF. unfold remove_multiserved. set (ms := twice [] (concat (map wrap rs))).
  assert (HU : forall m, m <> 0%nat -> ~ In m ms -> forall q q', is_visit rs q m -> is_visit rs q' m -> q = q').
  { intros m Hm Hms q q' Hq Hq'. assert (Hdec : {q = q'} + {q <> q'}) by (decide equality; apply Nat.eq_dec). destruct Hdec as [|Hne]; [assumption|].
    exfalso. apply Hms. apply twice_spec. split; [exact Hm|]. cbn [count_occ]. rewrite count_wrap by exact Hm. split; [lia|]. apply (two_visits rs m HN q q'); assumption. }
  assert (H0 : ~ In 0%nat ms) by (intros X; apply twice_spec in X; tauto).
  destruct (drop_extra_ok eps D d C L Htri Hd (length (map (visits (map wrap rs)) ms)) rs ms (map (visits (map wrap rs)) ms)) as (rs' & A1 & A2 & A3 & A4); auto.
  - apply twice_nodup.
  - clear - H0 HN. induction ms as [|m ms IH]; cbn [map]; constructor; [|apply IH; intros X; apply H0; now right].
    assert (Hm : m <> 0%nat) by (intros ->; apply H0; now left). split; [apply visits_nodup; assumption|intros q; apply visits_in, Hm].
  - rewrite A1.
    assert (Hx : forall x, In x (concat rs') <-> In x (concat rs)).
    { intros x. destruct (Nat.eq_dec x 0) as [->|Hx]; [|rewrite <- !visit_concat; symmetry; apply A4, Hx].
      split; intros X; exfalso.
      - assert (Hi : forall l l', Forall2 (sub eps D d C L) l l' -> incl (concat l') (concat l)).
        { clear. induction 1 as [|? ? ? ? (_ & _ & I & _)]; [apply incl_refl|]. cbn. intros z Hz. apply in_app_or in Hz. apply in_or_app. destruct Hz; auto. }
        apply (Hi _ _ A2), HR in X. lia.
      - apply HR in X. lia. }
    assert (HN' : Forall (@NoDup nat) rs') by (eapply sub_nodup; eassumption).
    assert (HD : NoDup (concat rs')). { apply unique_nodup; [exact HN'|]. intros m Hm. apply A3. apply Hx, HR in Hm. lia. }
    assert (HF' : Forall (feasible D d C L eps eps) rs'). { clear - A2 HF. revert HF. induction A2 as [|? ? ? ? (I & _)]; intros HF; [constructor|]. inversion HF; subst. constructor; auto. }
    assert (HCost : routes_cost D rs' <= routes_cost D rs). { clear - A2. induction A2 as [|? ? ? ? (_ & _ & _ & I) A IH]; [reflexivity|]. unfold routes_cost in *. cbn [map]. rewrite !sumZ_cons. lia. }
    assert (HL : length rs' = length rs) by (symmetry; eapply f2_len; eassumption).
    set (nodes := nodup Nat.eq_dec (filter (fun n => negb (Nat.eqb n 0)) (concat (map wrap rs)))).
    assert (Hnodes : forall x, In x nodes <-> In x (concat rs)).
    { intros x. unfold nodes. rewrite nodup_In, filter_In. rewrite !(count_occ_In Nat.eq_dec). destruct (Nat.eqb_spec x 0) as [->|Hx0]; cbn [negb].
      - split; [easy|]. intros X. exfalso. apply (count_occ_In Nat.eq_dec), HR in X. lia.
      - rewrite count_wrap by exact Hx0. tauto. }
    exists rs', (Nat.eqb (S (length nodes)) N). split; [reflexivity|]. split; [split; [exact HD|split; [intros x X; apply HR, Hx, X|exact HF']]|]. split; [exact HL|]. split; [exact Hx|]. split; [exact HCost|].
    assert (HPl : length (concat rs') = length nodes).
    { apply Permutation_length, NoDup_Permutation; [exact HD|apply NoDup_nodup|]. intros x. now rewrite Hnodes, Hx. }
    split.
    + intros E. apply Nat.eqb_eq in E. split; [|exact HF']. unfold covers. apply NoDup_Permutation_bis; [exact HD|rewrite seq_length; lia|].
      intros x X. apply in_seq. apply Hx, HR in X. lia.
    + intros H1 Hall. apply Nat.eqb_eq. assert (HQ : length (concat rs') = length (seq 1 (N - 1))).
      { apply Permutation_length, NoDup_Permutation; [exact HD|apply seq_NoDup|]. intros x. rewrite Hx, in_seq. split; [intros X; apply HR in X; lia|intros X; apply Hall; lia]. }
      rewrite seq_length in HQ. lia.
Qed.
End Remove.
