(** * Matching based savings: sets, the cache and the integer program *)
From Verif Require Import Spec Spec_inter Spec_rfcs Spec_mbsa PyBase M_mbsa P_base.
Require Import Sorting.Sorted ZifyBool ZifyNat Lia.

(** ** Sets *)
Notation asc := (StronglySorted lt).

Lemma in_ins x y l : In y (ins x l) <-> y = x \/ In y l.
Proof.
  induction l as [|a l IH]; simpl; [firstorder|].
  destruct (Nat.ltb_spec x a); simpl; [firstorder|]. destruct (Nat.eqb_spec x a); simpl; [subst; firstorder|]. rewrite IH. firstorder.
Qed.
Lemma ins_asc x l : asc l -> asc (ins x l).
Proof.
  induction l as [|a l IH]; simpl; intros H; [repeat constructor|]. inversion H as [|? ? H1 H2]; subst.
  destruct (Nat.ltb_spec x a).
  - constructor; [assumption|]. constructor; [assumption|]. eapply Forall_impl; [|exact H2]. simpl. lia.
  - destruct (Nat.eqb_spec x a); [assumption|]. constructor; [now apply IH|]. apply Forall_forall. intros y Hy. apply in_ins in Hy.
    destruct Hy as [->|Hy]; [lia|]. rewrite Forall_forall in H2. now apply H2.
Qed.
Lemma in_union a b x : In x (union a b) <-> In x a \/ In x b.
Proof. unfold union. induction a as [|y a IH]; simpl; [tauto|]. rewrite in_ins, IH. intuition. Qed.
Lemma union_asc a b : asc b -> asc (union a b).
Proof. unfold union. intros H. induction a as [|y a IH]; simpl; [assumption|]. now apply ins_asc. Qed.
Lemma asc_nodup l : asc l -> NoDup l.
Proof.
  induction 1 as [|a l H IH F]; constructor; [|assumption]. intros Hin. rewrite Forall_forall in F. specialize (F _ Hin). lia.
Qed.
Lemma asc_ext : forall a b, asc a -> asc b -> (forall x, In x a <-> In x b) -> a = b.
Proof.
  induction a as [|x a IH]; intros b Ha Hb E.
  - destruct b as [|y b]; [reflexivity|]. exfalso. apply (E y). now left.
  - destruct b as [|y b]; [exfalso; apply (E x); now left|].
    inversion Ha as [|? ? A1 A2]; subst. inversion Hb as [|? ? B1 B2]; subst.
    rewrite Forall_forall in A2, B2.
    assert (x = y).
    { destruct (E x) as [E1 _]. destruct (E y) as [_ E2].
      destruct (E1 (or_introl eq_refl)) as [->|H1]; [reflexivity|]. destruct (E2 (or_introl eq_refl)) as [->|H2]; [reflexivity|].
      specialize (B2 _ H1). specialize (A2 _ H2). lia. }
    subst y. f_equal. apply IH; [assumption|assumption|]. intros z. split; intros Hz.
    + destruct (E z) as [E1 _]. destruct (E1 (or_intror Hz)) as [->|H1]; [|assumption]. specialize (A2 _ Hz). lia.
    + destruct (E z) as [_ E2]. destruct (E2 (or_intror Hz)) as [->|H1]; [|assumption]. specialize (B2 _ Hz). lia.
Qed.
Lemma union_comm a b : asc a -> asc b -> union a b = union b a.
Proof. intros Ha Hb. apply asc_ext; [now apply union_asc|now apply union_asc|]. intros x. rewrite !in_union. tauto. Qed.
Lemma nodup_app_split {A} (a b : list A) : NoDup (a ++ b) -> NoDup a /\ NoDup b /\ (forall x, In x a -> ~ In x b).
Proof.
  induction a as [|x a IH]; simpl; intros H; [repeat split; [constructor|assumption|tauto]|]. inversion H as [|? ? H1 H2]; subst.
  destruct (IH H2) as (I1 & I2 & I3). split; [|split; [assumption|]].
  - constructor; [|assumption]. intros Hx. apply H1, in_or_app. now left.
  - intros y [<-|Hy]; [|now apply I3]. intros Hy. apply H1, in_or_app. now right.
Qed.
Lemma union_joined g h : asc h -> NoDup (g ++ h) -> joined g h (union g h).
Proof.
  intros Hh HN. split; [|now apply union_asc]. apply NoDup_Permutation; [apply asc_nodup; now apply union_asc|assumption|].
  intros x. now rewrite in_union, in_app_iff.
Qed.
Lemma joined_unique g h u u' : joined g h u -> joined g h u' -> u = u'.
Proof.
  intros [P1 A1] [P2 A2]. apply asc_ext; [assumption|assumption|]. intros x.
  split; apply Permutation_in; [transitivity (g ++ h)|transitivity (g ++ h)]; auto using Permutation_sym.
Qed.
Lemma joined_swap g h u : joined g h u -> joined h g u.
Proof. intros [P A]. split; [|assumption]. rewrite P. apply Permutation_app_comm. Qed.

Lemma set_eqb_spec a b : reflect (a = b) (set_eqb a b).
Proof. unfold set_eqb. destruct (list_eq_dec Nat.eq_dec a b); now constructor. Qed.

(** ** The cache *)
Definition cache_ok (f : tsp) (c : tcache) : Prop := forall s e, lookup c s = Some e -> e = f (0%nat :: s).
Definition has (c : tcache) (s : nodeset) : Prop := lookup c s <> None.
Definition grows (c c' : tcache) : Prop := forall s, has c s -> has c' s.

Lemma grows_refl c : grows c c. Proof. now intros s. Qed.
Lemma grows_trans a b c : grows a b -> grows b c -> grows a c. Proof. intros H1 H2 s Hs. now apply H2, H1. Qed.
Lemma get_tsp_ok f c s : cache_ok f c ->
  fst (get_tsp f c s) = f (0%nat :: s) /\ cache_ok f (snd (get_tsp f c s)) /\ grows c (snd (get_tsp f c s)) /\ has (snd (get_tsp f c s)) s.
Proof.
  intros H. unfold get_tsp. destruct (lookup c s) as [e|] eqn:E; simpl.
  - split; [now apply H|]. split; [assumption|]. split; [apply grows_refl|]. unfold has. congruence.
  - split; [reflexivity|]. split; [|split].
    + intros s' e'. simpl. destruct (set_eqb_spec s' s) as [->|]; [now intros [= <-]|]. apply H.
    + intros s' Hs. unfold has in *. simpl. destruct (set_eqb s' s); [discriminate|assumption].
    + unfold has. simpl. destruct (set_eqb_spec s s); [discriminate|congruence].
Qed.

Section Values.
Variables (ceps seps : Z) (d : demands) (C L : limit) (f : tsp) (W : Z).

(** The value computed for two sets *)
Definition cap_fits (a b : nodeset) : bool := negb (exceeds C ceps (get_demand d a + get_demand d b)).
Definition len_fits (a b : nodeset) : bool := negb (exceeds L seps (snd (f (0%nat :: union a b)))).
Definition wt (a b : nodeset) : Z :=
  if cap_fits a b && len_fits a b then gain f a b (union a b) else W.
(** What is in the cache once they are priced *)
Definition priced (c : tcache) (a b : nodeset) : Prop :=
  (cap_fits a b = true -> has c (union a b)) /\ (cap_fits a b && len_fits a b = true -> has c a /\ has c b).

Lemma priced_grows c c' a b : grows c c' -> priced c a b -> priced c' a b.
Proof. intros G [H1 H2]. split; [intros; now apply G, H1|]. intros H. split; apply G; now apply H2. Qed.

Lemma calc_ok c a b : cache_ok f c ->
  fst (calc_savings ceps seps d C L f W c a b) = wt a b /\
  cache_ok f (snd (calc_savings ceps seps d C L f W c a b)) /\ grows c (snd (calc_savings ceps seps d C L f W c a b)) /\
  priced (snd (calc_savings ceps seps d C L f W c a b)) a b.
Proof.
  intros H. unfold calc_savings, wt, priced, cap_fits, len_fits, gain.
  destruct (exceeds C ceps (get_demand d a + get_demand d b)) eqn:E1; simpl.
  { repeat split; auto using grows_refl; discriminate. }
  destruct (get_tsp_ok f c (union a b) H) as (A1 & A2 & A3 & A4). destruct (get_tsp f c (union a b)) as [e12 c1]. simpl in A1, A2, A3, A4. subst e12.
  destruct (exceeds L seps (snd (f (0%nat :: union a b)))) eqn:E2; simpl.
  { repeat split; auto; discriminate. }
  destruct (get_tsp_ok f c1 a A2) as (B1 & B2 & B3 & B4). destruct (get_tsp f c1 a) as [e1 c2]. simpl in B1, B2, B3, B4. subst e1.
  destruct (get_tsp_ok f c2 b B2) as (G1 & G2 & G3 & G4). destruct (get_tsp f c2 b) as [e2 c3]. simpl in G1, G2, G3, G4. subst e2. simpl.
  split; [reflexivity|]. split; [assumption|]. split; [eauto using grows_trans|]. split; [intros _; now apply G3, B3|]. intros _. split; [now apply G3|assumption].
Qed.
Lemma calc_caches_ok c a b c' : cache_ok f c -> In c' (calc_caches ceps seps d C L f c a b) -> cache_ok f c' /\ grows c c'.
Proof.
  intros H. unfold calc_caches. destruct (exceeds C ceps (get_demand d a + get_demand d b)) eqn:E1.
  { intros [<-|[]]. auto using grows_refl. }
  destruct (get_tsp_ok f c (union a b) H) as (A1 & A2 & A3 & A4). destruct (get_tsp f c (union a b)) as [e12 c1]. simpl in A1, A2, A3, A4.
  destruct (exceeds L seps (snd e12)) eqn:E2.
  { intros [<-|[<-|[]]]; auto using grows_refl. }
  destruct (get_tsp_ok f c1 a A2) as (B1 & B2 & B3 & B4). destruct (get_tsp f c1 a) as [e1 c2]. simpl in B1, B2, B3, B4.
  destruct (get_tsp_ok f c2 b B2) as (G1 & G2 & G3 & G4). destruct (get_tsp f c2 b) as [e2 c3]. simpl in G1, G2, G3, G4.
  intros [<-|[<-|[<-|[<-|[]]]]]; eauto using grows_refl, grows_trans.
Qed.

Let calc := calc_savings ceps seps d C L f W.
Definition task_value (t : task) : Z * (nat * nat) := let '(a, b, k) := t in (wt a b, k).
Lemma price_ok : forall l c, cache_ok f c ->
  fst (price calc c l) = map task_value l /\ cache_ok f (snd (price calc c l)) /\ grows c (snd (price calc c l)) /\
  (forall a b k, In (a, b, k) l -> priced (snd (price calc c l)) a b).
Proof.
  induction l as [|[[a b] k] l IH]; intros c H; simpl; [split; [reflexivity|]; split; [assumption|]; split; [apply grows_refl|intros ? ? ? []]|].
  destruct (calc_ok c a b H) as (A1 & A2 & A3 & A4). fold calc in A1, A2, A3, A4. destruct (calc c a b) as [w c1]. simpl in A1, A2, A3, A4. subst w.
  destruct (IH c1 A2) as (B1 & B2 & B3 & B4). destruct (price calc c1 l) as [ws c2]. simpl in *. subst ws.
  split; [reflexivity|]. split; [assumption|]. split; [eauto using grows_trans|].
  intros a' b' k' [[= <- <- <-]|Hin]; [now apply (priced_grows c1)|]. now apply (B4 a' b' k').
Qed.
Lemma price_caches_ok : forall l c c', cache_ok f c -> In c' (price_caches calc (calc_caches ceps seps d C L f) c l) -> cache_ok f c' /\ grows c c'.
Proof.
  induction l as [|[[a b] k] l IH]; intros c c' H; simpl; [intros []|]. intros Hin. apply in_app_or in Hin. destruct Hin as [Hin|Hin].
  - now apply (calc_caches_ok c a b).
  - destruct (calc_ok c a b H) as (A1 & A2 & A3 & A4). fold calc in A1, A2, A3, A4. destruct (IH _ _ A2 Hin) as [B1 B2]. split; [assumption|]. eapply grows_trans; eassumption.
Qed.

Lemma wt_comm a b : asc a -> asc b -> wt a b = wt b a.
Proof.
  intros Ha Hb. unfold wt, cap_fits, len_fits, gain. rewrite (union_comm b a), (Z.add_comm (get_demand d b)) by assumption.
  destruct (_ && _); [lia|reflexivity].
Qed.
Lemma fits_wt a b : d 0%nat = 0 -> asc b -> NoDup (a ++ b) ->
  cap_fits a b && len_fits a b = true <-> fits d C L ceps seps f a b (union a b).
Proof.
  intros H0 Hb HN. unfold cap_fits, len_fits, fits. rewrite andb_true_iff, !negb_true_iff, !exceeds_within.
  replace (get_demand d a + get_demand d b) with (demand d (a ++ b)); [tauto|].
  unfold demand, get_demand. rewrite map_app. simpl. rewrite H0. assert (E : forall l m, sumZ (l ++ m) = sumZ l + sumZ m) by (induction l; intros; simpl; [lia|rewrite IHl; lia]).
  rewrite E. lia.
Qed.
End Values.

(** ** The integer program: the best pair is always chosen *)
Lemma picked_cons {A} b x (a : A) l : picked (b :: x) (a :: l) = if b then a :: picked x l else picked x l.
Proof. unfold picked. simpl. now destruct b. Qed.
Lemma picked_app {A} : forall x1 x2 (l1 l2 : list A), length x1 = length l1 -> picked (x1 ++ x2) (l1 ++ l2) = picked x1 l1 ++ picked x2 l2.
Proof.
  induction x1 as [|b x1 IH]; intros x2 [|a l1] l2 E; simpl in E; try discriminate; [reflexivity|].
  simpl app. rewrite !picked_cons. rewrite IH by lia. now destruct b.
Qed.
Lemma chosen_picked {A} : forall x (l : list A), chosen x l = picked x l.
Proof. induction x as [|b x IH]; intros [|a l]; simpl; try reflexivity. rewrite picked_cons. destruct b; now rewrite IH. Qed.
Lemma picked_in {A} x (l : list A) a : In a (picked x l) -> In a l.
Proof. unfold picked. rewrite in_map_iff. intros ([a' b] & <- & H). apply filter_In in H. destruct H as [H _]. now apply in_combine_l in H. Qed.

(** Row [k] emptied *)
Definition cleared (k : nat) (x : list bool) (w : list (Z * (nat * nat))) : list bool :=
  map (fun p => if Nat.eqb (fst (snd (snd p))) k then false else fst p) (combine x w).
Lemma cleared_picked k : forall w x, length x = length w ->
  picked (cleared k x w) w = filter (fun e => negb (Nat.eqb (fst (snd e)) k)) (picked x w).
Proof.
  induction w as [|e w IH]; intros [|b x] E; simpl in E; try discriminate; [reflexivity|].
  unfold cleared. simpl combine. simpl map. fold (cleared k x w). rewrite !picked_cons. rewrite IH by lia.
  destruct (Nat.eqb (fst (snd e)) k) eqn:Ek; destruct b; simpl; rewrite ?Ek; reflexivity.
Qed.
Lemma cleared_length k x w : length x = length w -> length (cleared k x w) = length w.
Proof. intros E. unfold cleared. rewrite map_length, combine_length. lia. Qed.

Lemma filter_filter_comm {A} (p q : A -> bool) l : filter p (filter q l) = filter q (filter p l).
Proof. induction l as [|a l IH]; simpl; [reflexivity|]. destruct (p a) eqn:P; destruct (q a) eqn:Q; simpl; rewrite ?P, ?Q, IH; reflexivity. Qed.
Lemma sum_split (p : Z * (nat * nat) -> bool) l :
  sumZ (map fst l) = sumZ (map fst (filter p l)) + sumZ (map fst (filter (fun e => negb (p e)) l)).
Proof. induction l as [|a l IH]; simpl; [reflexivity|]. destruct (p a); simpl; lia. Qed.

Lemma optimal_row w x e : optimal w x -> In e w ->
  exists e', In e' (picked x w) /\ fst (snd e') = fst (snd e) /\ fst e <= fst e'.
Proof.
  intros [[HL HR] HM] Hin. set (k := fst (snd e)).
  assert (Hk : In k (map (fun e => fst (snd e)) w)) by (apply in_map_iff; now exists e).
  pose proof (HR k Hk) as R1.
  destruct (filter (fun e => Nat.eqb (fst (snd e)) k) (picked x w)) as [|e' [|]] eqn:F; simpl in R1; try discriminate.
  assert (Fe : In e' (picked x w) /\ Nat.eqb (fst (snd e')) k = true) by (apply (filter_In (fun e0 : Z * (nat * nat) => Nat.eqb (fst (snd e0)) k) e'); rewrite F; now left).
  exists e'. split; [apply Fe|]. split; [apply Nat.eqb_eq, Fe|].
  destruct (in_split _ _ Hin) as (w1 & w2 & Ew).
  assert (exists x1 b x2, x = x1 ++ b :: x2 /\ length x1 = length w1 /\ length x2 = length w2) as (x1 & b & x2 & Ex & L1 & L2).
  { exists (firstn (length w1) x). assert (HS : length x = (length w1 + S (length w2))%nat) by (rewrite HL, Ew, app_length; reflexivity).
    destruct (skipn (length w1) x) as [|b x2] eqn:S; [apply (f_equal (@length bool)) in S; rewrite skipn_length in S; simpl in S; lia|].
    exists b, x2. rewrite <- S, firstn_skipn. split; [reflexivity|]. split; [rewrite firstn_length; lia|].
    apply (f_equal (@length bool)) in S. rewrite skipn_length in S. simpl in S. lia. }
  set (y := cleared k x1 w1 ++ true :: cleared k x2 w2).
  set (off := fun e : Z * (nat * nat) => negb (Nat.eqb (fst (snd e)) k)).
  assert (Py : picked y w = filter off (picked x1 w1) ++ e :: filter off (picked x2 w2)).
  { unfold y. rewrite Ew, picked_app by (now apply cleared_length). rewrite picked_cons, !cleared_picked by assumption. reflexivity. }
  assert (Px : picked x w = picked x1 w1 ++ (if b then [e] else []) ++ picked x2 w2).
  { rewrite Ex, Ew, picked_app by assumption. rewrite picked_cons. now destruct b. }
  assert (Eoff : off e = false) by (unfold off, k; now rewrite Nat.eqb_refl).
  assert (Foff : filter off (picked x w) = filter off (picked x1 w1) ++ filter off (picked x2 w2)).
  { rewrite Px, !filter_app. f_equal. destruct b; simpl; [now rewrite Eoff|reflexivity]. }
  assert (Hy : one_per_row w y).
  { split.
    - unfold y. rewrite Ew, !app_length. simpl. rewrite !cleared_length by assumption. reflexivity.
    - intros k' Hk'. destruct (Nat.eq_dec k' k) as [->|Hne].
      + rewrite Py, filter_app. simpl. fold k. rewrite Nat.eqb_refl.
        assert (Z0 : forall l, filter (fun e0 : Z * (nat * nat) => Nat.eqb (fst (snd e0)) k) (filter off l) = []).
        { induction l as [|a l IH]; simpl; [reflexivity|]. unfold off at 1. destruct (Nat.eqb (fst (snd a)) k) eqn:Ea; simpl; [assumption|]. rewrite Ea. assumption. }
        now rewrite !Z0.
      + pose proof (HR k' Hk') as R'. 
        assert (G : filter (fun e0 : Z * (nat * nat) => Nat.eqb (fst (snd e0)) k') (picked x w) = filter (fun e0 => Nat.eqb (fst (snd e0)) k') (filter off (picked x w))).
        { generalize (picked x w). induction l as [|a l IH]; simpl; [reflexivity|]. destruct (Nat.eqb (fst (snd a)) k') eqn:Ea.
          - assert (off a = true) as -> by (unfold off; destruct (Nat.eqb_spec (fst (snd a)) k); [apply Nat.eqb_eq in Ea; congruence|reflexivity]). simpl. now rewrite Ea, IH.
          - destruct (off a); simpl; rewrite ?Ea; assumption. }
        rewrite G, Foff in R'. rewrite Py, filter_app. simpl. fold k. destruct (Nat.eqb_spec k k'); [congruence|]. now rewrite filter_app in R'. }
  specialize (HM y Hy). unfold total in HM. rewrite (sum_split (fun e => Nat.eqb (fst (snd e)) k) (picked x w)) in HM. rewrite F in HM.
  fold off in HM. rewrite Foff in HM. rewrite Py in HM. revert HM. rewrite !map_app. simpl.
  assert (E : forall l m, sumZ (l ++ m) = sumZ l + sumZ m) by (induction l; intros; simpl; [lia|rewrite IHl; lia]). rewrite !E. simpl. lia.
Qed.

Lemma tuple_max_in : forall l a, tuple_max a l = a \/ In (tuple_max a l) l.
Proof.
  induction l as [|b l IH]; intros a; simpl; [now left|]. destruct (IH (if tuple_lt a b then b else a)) as [H|H]; [|now right; right].
  destruct (tuple_lt a b); rewrite H; [right; now left|now left].
Qed.
Lemma tuple_lt_w a b : tuple_lt a b = true -> fst (fst a) <= fst (fst b).
Proof. destruct a as [[w1 v1] [i1 j1]], b as [[w2 v2] [i2 j2]]. simpl. destruct (Z.ltb_spec w1 w2); [lia|]. destruct (Z.ltb_spec w2 w1); [discriminate|lia]. Qed.
Lemma tuple_nlt_w a b : tuple_lt a b = false -> fst (fst b) <= fst (fst a).
Proof. destruct a as [[w1 v1] [i1 j1]], b as [[w2 v2] [i2 j2]]. simpl. destruct (Z.ltb_spec w1 w2); [discriminate|lia]. Qed.
Lemma tuple_max_w : forall l a, fst (fst a) <= fst (fst (tuple_max a l)) /\ (forall b, In b l -> fst (fst b) <= fst (fst (tuple_max a l))).
Proof.
  induction l as [|b l IH]; intros a; simpl; [split; [lia|intros ? []]|].
  destruct (IH (if tuple_lt a b then b else a)) as [H1 H2]. destruct (tuple_lt a b) eqn:E.
  - apply tuple_lt_w in E. split; [lia|]. intros c [<-|Hc]; [assumption|now apply H2].
  - apply tuple_nlt_w in E. split; [assumption|]. intros c [<-|Hc]; [lia|now apply H2].
Qed.

Lemma picked_combine : forall (sv : savings) x (s : list Z), length s = length sv ->
  forall t : Z * Z * (nat * nat), In t (picked x (combine (combine (map fst sv) s) (map snd sv))) <->
       exists (e : Z * (nat * nat)) (v : Z), In (e, v) (picked x (combine sv s)) /\ t = (fst e, v, snd e).
Proof.
  induction sv as [|e sv IH]; intros [|b x] [|v s] E t; simpl in E; try discriminate;
    try (split; [intros []|intros (? & ? & [] & _)]).
  simpl combine. rewrite !picked_cons. destruct b.
  - simpl. rewrite IH by lia. split.
    + intros [<-|(e' & v' & H & ->)]; [exists e, v; auto|exists e', v'; auto].
    + intros (e' & v' & [[= <- <-]|H] & ->); [now left|right; eauto].
  - apply IH. lia.
Qed.
Lemma picked_pairs : forall (sv : savings) x (s : list Z), length s = length sv -> length x = length sv ->
  map fst (picked x (combine sv s)) = picked x sv.
Proof.
  induction sv as [|e sv IH]; intros [|b x] [|v s] E E2; simpl in E, E2; try discriminate; [reflexivity|].
  simpl combine. rewrite !picked_cons. destruct b; simpl; rewrite IH by lia; reflexivity.
Qed.

Lemma mmp_best mm second sv n w i j :
  (forall sv n x, mm sv n = MipOptimal x -> optimal sv x) ->
  mmp_solve mm second sv n = MmBest w i j -> In (w, (i, j)) sv /\ (forall e, In e sv -> fst e <= w).
Proof.
  intros Hmm. unfold mmp_solve. destruct (mm sv n) as [x| | |] eqn:Em; try discriminate. specialize (Hmm _ _ _ Em).
  set (s := if second then secondary_criteria sv n else repeat 0 (length sv)).
  assert (Ls : length s = length sv) by (unfold s; destruct second; [unfold secondary_criteria; now rewrite map_length|apply repeat_length]).
  rewrite chosen_picked. pose proof (picked_combine sv x s Ls) as HP.
  destruct (picked x (combine (combine (map fst sv) s) (map snd sv))) as [|a t]; [discriminate|].
  destruct (tuple_max a t) as [[w0 v0] [i0 j0]] eqn:Et. intros [= -> -> ->].
  pose proof (tuple_max_w t a) as [W1 W2]. rewrite Et in W1, W2. simpl in W1, W2.
  assert (Hin : In (w, v0, (i, j)) (a :: t)) by (destruct (tuple_max_in t a) as [H|H]; rewrite Et in H; [now left|now right]).
  destruct Hmm as [[HL HR] HM].
  split.
  - apply HP in Hin. destruct Hin as (e & v & H & [= -> -> Ek]). apply (in_map fst) in H. rewrite picked_pairs in H by assumption.
    simpl in H. apply picked_in in H. destruct e as [ew ek]. simpl in *. now rewrite Ek.
  - intros e He. destruct (optimal_row sv x e (conj (conj HL HR) HM) He) as (e' & H1 & _ & H3).
    rewrite <- (picked_pairs sv x s) in H1 by assumption. apply in_map_iff in H1. destruct H1 as ([e1 v1] & <- & H1). simpl in H3.
    assert (Ht : In (fst e1, v1, snd e1) (a :: t)) by (apply HP; now exists e1, v1).
    destruct Ht as [Ht|Ht]; [rewrite Ht in W1; simpl in W1; lia|]. specialize (W2 _ Ht). simpl in W2. lia.
Qed.
Lemma mmp_nonempty mm second sv n :
  (forall sv n x, mm sv n = MipOptimal x -> optimal sv x) -> sv <> [] -> mmp_solve mm second sv n <> MmEmpty.
Proof.
  intros Hmm Hne. unfold mmp_solve. destruct (mm sv n) as [x| | |] eqn:Em; try discriminate. specialize (Hmm _ _ _ Em).
  set (s := if second then secondary_criteria sv n else repeat 0 (length sv)).
  assert (Ls : length s = length sv) by (unfold s; destruct second; [unfold secondary_criteria; now rewrite map_length|apply repeat_length]).
  rewrite chosen_picked. pose proof (picked_combine sv x s Ls) as HP.
  destruct (picked x (combine (combine (map fst sv) s) (map snd sv))) as [|a t].
  - destruct sv as [|e sv]; [congruence|]. destruct (optimal_row _ x e Hmm (or_introl eq_refl)) as (e' & H1 & _).
    rewrite <- (picked_pairs _ x s) in H1 by (try assumption; apply Hmm). apply in_map_iff in H1. destruct H1 as ([e1 v1] & <- & H1).
    exfalso. apply (proj2 (HP (fst e1, v1, snd e1))). now exists e1, v1.
  - destruct (tuple_max a t) as [[? ?] [? ?]]. discriminate.
Qed.
