(** * Two phase heuristic: phase two *)
From Verif Require Import Spec Spec_inter Spec_savings Spec_rfcs Spec_tyagi PyBase M_util M_psavings M_cmt P_base P_driver P_psavings P_nn2 P_ssavings P_cins2 P_tyagi P_tyagi4 P_cmt.
Require Import ZifyBool ZifyNat Lia.

Lemma Forall2_length {A B} (R : A -> B -> Prop) l l' : Forall2 R l l' -> length l = length l'.
Proof. intros H. induction H; cbn; congruence. Qed.

Section Two.
Variables (ceps seps : Z) (N : nat) (D : matrix) (d : demands) (C L : limit) (f : tsp).
Hypothesis Hf : solver N D f.
Hypothesis HfL : limit_set L -> shortens N D f.
Hypothesis Halone : served_alone N D d C L ceps seps.

Notation on_route := (on_route ceps seps N D d C L).
Notation fill := (p2_fill ceps seps D d C L f).

Lemma p2_fill_ok k : forall cands st r inf un made, on_route st r -> NoDup cands -> incl cands un -> NoDup (r ++ un) -> customers_in N un ->
  let '(st2, inf2, un2, made2, pts) := fill k cands st inf un made in
  exists r2, on_route st2 r2 /\ Permutation (r2 ++ un2) (r ++ un) /\ incl r r2 /\
    (made2 = false -> made = false /\ st2 = st /\ un2 = un) /\
    (length un2 + (if made2 then 1 else 0) <= length un + (if made then 1 else 0))%nat /\
    forall u, In u pts -> exists q b, Permutation q (r ++ b) /\ Permutation (b ++ u) un /\ feasible D d C L ceps seps q.
Proof using Hf.
  induction cands as [|i cands IH]; intros st r inf un made H Hn Hin Hnd Hc; cbn [p2_fill].
  - exists r. split; [exact H|split; [reflexivity|split; [intros x; tauto|split; [intros ->; auto|split; [lia|intros u []]]]]].
  - apply NoDup_cons_iff in Hn as (Hi & Hn).
    assert (Hiu : In i un) by (apply Hin; now left).
    assert (Hin' : incl cands un) by (intros x Hx; apply Hin; now right).
    assert (Hir : ~ In i r).
    { intros X. clear - X Hiu Hnd. induction r as [|y r IHr]; [destruct X|]. cbn in Hnd. apply NoDup_cons_iff in Hnd as (A & B). destruct X as [->|X]; [apply A, in_or_app; now right|auto]. }
    match goal with |- context [if ?b then _ else _] => destruct b end; [now apply IH|].
    destruct (try_insert ceps seps D d C L f st i) as [| |st'] eqn:E; [now apply IH|now apply IH|].
    destruct (put_on_route _ _ _ _ _ _ _ _ Hf _ _ _ _ H (Hc i Hiu) Hir E) as (r' & H' & P).
    assert (Hun : NoDup un) by (clear - Hnd; induction r; [exact Hnd|]; cbn in Hnd; apply NoDup_cons_iff in Hnd; tauto).
    pose proof (dict_del_perm i un Hun Hiu) as Pd.
    assert (PP : Permutation (r' ++ dict_del i un) (r ++ un)) by (rewrite P, <- app_assoc; apply Permutation_app_head; exact Pd).
    specialize (IH st' r' inf (dict_del i un) true H' Hn).
    destruct (fill k cands st' inf (dict_del i un) true) as [[[[st2 inf2] un2] made2] pts].
    destruct IH as (r2 & A1 & A2 & A3 & A4 & A5 & A6).
    + intros x Hx. apply dict_del_in. split; [now apply Hin'|]. intros ->. auto.
    + now apply (Permutation_NoDup (Permutation_sym PP)).
    + intros x Hx. apply dict_del_in in Hx. now apply Hc.
    + exists r2. split; [exact A1|split; [now rewrite A2|split; [|split; [|split]]]].
      * intros x Hx. apply A3. apply (Permutation_in _ (Permutation_sym P)). apply in_or_app; now left.
      * intros ->. destruct (A4 eq_refl) as (X & _). discriminate.
      * apply Permutation_length in Pd. cbn [length] in Pd. destruct made; lia.
      * intros u [<-|Hu].
        -- exists r', [i]. split; [exact P|split; [exact Pd|apply H']].
        -- destruct (A6 u Hu) as (q & b & B1 & B2 & B3). exists q, (i :: b). split; [|split; [|exact B3]].
           ++ rewrite B1, P, <- app_assoc. reflexivity.
           ++ cbn [app]. now rewrite B2.
Qed.

Variables (mu : Z * Z) (seeds : list nat) (most : bool) (repeated : option nat).
Variables (shuffled : nat -> list nat) (argp : nat -> list Z -> list nat).
Hypothesis Hshuf : forall p, Permutation (shuffled p) (range 0 (length seeds)).

(** Routes in the making with the customers on them *)
Definition p2_ok (st : p2st) (rs : list (list nat)) : Prop :=
  Forall2 on_route (p2_routes st) rs /\ Permutation (concat rs ++ p2_unrouted st) (seq 1 (N - 1)) /\
  Forall2 (fun s r => In s r) seeds rs /\ Forall (fun i => (i < length seeds)%nat) (p2_idxs st).
(** What an interrupt finds *)
Definition p2_halfway (p : list rstate * list nat) : Prop :=
  exists rs b r q, Forall2 on_route (fst p) rs /\ Permutation (concat rs ++ b ++ snd p) (seq 1 (N - 1)) /\ In r ([] :: rs) /\
    Permutation q (r ++ b) /\ (b = [] \/ feasible D d C L ceps seps q).
Definition todo (st : p2st) : nat :=
  ((length (p2_unrouted st) + (if p2_made st then 1 else 0) + (if p2_first st then 1 else 0) +
    (match repeated with Some m => m | None => 0 end + 1 - p2_nth st)) * (length seeds + 1) + length (p2_idxs st))%nat.

Lemma refill_ok st rs st' : p2_ok st rs -> p2_refill repeated shuffled st = Some st' ->
  p2_ok st' rs /\ p2_unrouted st' = p2_unrouted st /\ p2_routes st' = p2_routes st /\ (seeds <> [] -> p2_idxs st' <> []) /\ (todo st' <= todo st)%nat.
Proof using Hshuf argp.
  intros (O1 & O2 & O3 & O4). unfold p2_refill. destruct (p2_idxs st) as [|i l] eqn:E.
  - assert (HS : forall p, Forall (fun i => (i < length seeds)%nat) (shuffled p) /\ length (shuffled p) = length seeds /\ (seeds <> [] -> shuffled p <> [])).
    { intros p. split; [|split].
      - apply Forall_forall. intros x Hx. apply (Permutation_in _ (Hshuf p)) in Hx. unfold range in Hx. apply in_seq in Hx. lia.
      - rewrite (Permutation_length (Hshuf p)). unfold range. rewrite seq_length. lia.
      - intros X Y. pose proof (Permutation_length (Hshuf p)) as Z. rewrite Y in Z. unfold range in Z. rewrite seq_length in Z. cbn in Z. destruct seeds; [congruence|]. cbn in Z. lia. }
    assert (G : forall n, let q := mkp2 (p2_routes st) (p2_infeasible st) (p2_unrouted st) (shuffled (p2_pass st)) n false false (S (p2_pass st)) in
      p2_ok q rs /\ p2_unrouted q = p2_unrouted st /\ p2_routes q = p2_routes st /\ (seeds <> [] -> p2_idxs q <> [])).
    { intros n. destruct (HS (p2_pass st)) as (H1 & H2 & H3). cbn [p2_unrouted p2_routes p2_idxs]. split; [|split; [reflexivity|split; [reflexivity|exact H3]]].
      split; [exact O1|split; [exact O2|split; [exact O3|exact H1]]]. }
    assert (GT : forall n, (length (p2_unrouted st) + (match repeated with Some m => m | None => 0 end + 1 - n) + 1 <=
          length (p2_unrouted st) + (if p2_made st then 1 else 0) + (if p2_first st then 1 else 0) + (match repeated with Some m => m | None => 0 end + 1 - p2_nth st))%nat ->
        (todo (mkp2 (p2_routes st) (p2_infeasible st) (p2_unrouted st) (shuffled (p2_pass st)) n false false (S (p2_pass st))) <= todo st)%nat).
    { intros n Hn. unfold todo. cbn [p2_unrouted p2_made p2_first p2_nth p2_idxs]. destruct (HS (p2_pass st)) as (_ & H2 & _). rewrite H2, E. cbn [length]. nia. }
    destruct (p2_first st) eqn:Ef.
    + intros X. injection X as <-. destruct (G (p2_nth st)) as (G1 & G2 & G3 & G4). split; [exact G1|split; [exact G2|split; [exact G3|split; [exact G4|]]]]. apply GT. lia.
    + destruct repeated as [mm|] eqn:Er; [|discriminate]. set (n := if p2_made st then p2_nth st else S (p2_nth st)). destruct (Nat.ltb mm n) eqn:El; [discriminate|].
      intros X. injection X as <-. destruct (G n) as (G1 & G2 & G3 & G4). split; [exact G1|split; [exact G2|split; [exact G3|split; [exact G4|]]]].
      apply GT. unfold n in *. destruct (p2_made st); lia.
  - intros X. injection X as <-. split; [|split; [reflexivity|split; [reflexivity|split; [|lia]]]].
    + split; [exact O1|split; [exact O2|split; [exact O3|now rewrite E]]].
    + intros _. now rewrite E.
Qed.

Lemma chosen_lt idxs stars : idxs <> [] -> (chosen_position most idxs stars < length idxs)%nat.
Proof.
  intros H. unfold chosen_position. destruct most; [|destruct idxs; [congruence|cbn; lia]].
  assert (X : range 0 (length idxs) <> []) by (unfold range; destruct idxs; [congruence|discriminate]).
  destruct (first_best_in (fun p => Z.of_nat (count_occ Nat.eq_dec stars p)) _ X) as (Y & _). revert Y. generalize (first_best (fun p => Z.of_nat (count_occ Nat.eq_dec stars p)) (range 0 (length idxs))). intros z Y. unfold range in Y. apply in_seq in Y. lia.
Qed.
Lemma Forall2_nth_rel {A B} (R : A -> B -> Prop) k a b : forall l l', Forall2 R l l' -> (k < length l)%nat -> R (nth k l a) (nth k l' b).
Proof. intros l l' H. revert k. induction H; intros k Hk; [cbn in Hk; lia|]. destruct k; [exact H|]. cbn. apply IHForall2. cbn in Hk. lia. Qed.
Lemma Forall2_set_right {A B} (R : A -> B -> Prop) k y : forall l l' a, Forall2 R l l' -> R (nth k l a) y -> Forall2 R l (set_nth k y l').
Proof. intros l l' a H. revert k. induction H; intros k Hk; [destruct k; constructor|]. destruct k; cbn; constructor; auto. Qed.
Lemma assoc_incl (g : nat -> nat) p : forall l, NoDup l -> let a := map snd (filter (fun q => Nat.eqb (fst q) p) (combine (map g l) l)) in NoDup a /\ incl a l.
Proof.
  induction l as [|x l IH]; intros Hn; cbn [map combine filter fst]; [split; [constructor|intros x []]|].
  apply NoDup_cons_iff in Hn as (H1 & H2). destruct (IH H2) as (I1 & I2). destruct (Nat.eqb (g x) p); cbn [map snd].
  - split; [constructor; [intros X; apply H1, I2, X|exact I1]|]. intros y [->|Hy]; [now left|right; now apply I2].
  - split; [exact I1|]. intros y Hy. right. now apply I2.
Qed.
Lemma p2_candidates_perm k rest assoc : Permutation (p2_candidates D mu seeds k rest assoc) assoc.
Proof. unfold p2_candidates. cbv zeta. rewrite pair_sort_perm, map_map. cbn [snd]. now rewrite map_id. Qed.

Lemma round_ok st rs : seeds <> [] -> p2_ok st rs ->
  match p2_round ceps seps D d C L f mu seeds most repeated shuffled argp st with
  | inr st' => st' = st
  | inl (st', pts) => exists rs', p2_ok st' rs' /\ (todo st' < todo st)%nat /\ Forall p2_halfway pts
  end.
Proof using Hf Hshuf.
  intros Hse HO. unfold p2_round. destruct (p2_refill repeated shuffled st) as [s|] eqn:Er; [|reflexivity].
  destruct (refill_ok st rs s HO Er) as ((O1 & O2 & O3 & O4) & U & R & HI & HT). specialize (HI Hse).
  match goal with |- match (if ?b then _ else _) with _ => _ end => destruct b eqn:Eb end.
  - exists rs. split; [split; [exact O1|split; [exact O2|split; [exact O3|constructor]]]|]. split; [|constructor].
    unfold todo in *. cbn [p2_unrouted p2_made p2_first p2_nth p2_idxs length]. destruct (p2_idxs s); [congruence|]. cbn [length] in HT. lia.
  - cbv zeta. set (stars := map (r_star D mu seeds argp (p2_idxs s) (p2_nth s)) (p2_unrouted s)).
    set (p := chosen_position most (p2_idxs s) stars). set (k := nth p (p2_idxs s) 0%nat).
    set (rest := firstn p (p2_idxs s) ++ skipn (S p) (p2_idxs s)).
    assert (Hp : (p < length (p2_idxs s))%nat) by now apply chosen_lt.
    assert (Hk : (k < length seeds)%nat) by (rewrite Forall_forall in O4; apply O4, nth_In; exact Hp).
    assert (Hk' : (k < length (p2_routes s))%nat) by (rewrite (Forall2_length _ _ _ O1), <- (Forall2_length _ _ _ O3); exact Hk).
    assert (Hkr : (k < length rs)%nat) by now rewrite <- (Forall2_length _ _ _ O1).
    assert (Hnd : NoDup (concat rs ++ p2_unrouted s)) by (apply (Permutation_NoDup (Permutation_sym O2)), seq_NoDup).
    assert (Hci : customers_in N (p2_unrouted s)). { intros j Hj. assert (X : In j (seq 1 (N - 1))) by (apply (Permutation_in _ O2), in_or_app; now right). apply in_seq in X. lia. }
    pose proof (Forall2_nth_rel _ k (mkrs [] 0 0 true) [] _ _ O1 Hk') as Hr.
    destruct (assoc_incl (r_star D mu seeds argp (p2_idxs s) (p2_nth s)) p (p2_unrouted s) (app_nodup_r _ _ Hnd)) as (A1 & A2).
    fold stars in A1, A2. set (assoc := map snd (filter (fun q => Nat.eqb (fst q) p) (combine stars (p2_unrouted s)))) in *.
    pose proof (set_nth_split k rs [] Hkr) as Hsp.
    pose proof (p2_fill_ok k (p2_candidates D mu seeds k rest assoc) _ _ (p2_infeasible s) (p2_unrouted s) (p2_made s) Hr) as F.
    destruct (fill k (p2_candidates D mu seeds k rest assoc) (nth k (p2_routes s) (mkrs [] 0 0 true)) (p2_infeasible s) (p2_unrouted s) (p2_made s)) as [[[[st2 inf2] un2] made2] pts].
    assert (HIn : In (nth k rs []) rs) by now apply nth_In.
    destruct F as (r2 & F1 & F2 & F3 & F4 & F5 & F6).
    + apply (Permutation_NoDup (Permutation_sym (p2_candidates_perm k rest assoc))). exact A1.
    + intros x Hx. apply A2. now apply (Permutation_in _ (p2_candidates_perm k rest assoc)).
    + clear - HIn Hnd. induction rs as [|x rs IH]; [destruct HIn|]. cbn [concat] in Hnd. revert HIn. generalize (nth k (x :: rs) []). clear k IH. intros y HIn.
      revert HIn Hnd. generalize (p2_unrouted s). intros u. change (x ++ concat rs) with (concat (x :: rs)). generalize (x :: rs). intros l. induction l as [|z l IH]; [intros []|].
      cbn [concat]. rewrite <- app_assoc. intros [->|HIn] Hn.
      * clear IH. induction y as [|w y IHy]; [cbn [app] in Hn |- *; now apply app_nodup_r in Hn|]. cbn in Hn |- *. apply NoDup_cons_iff in Hn as (B1 & B2). constructor; [|auto].
        intros X. apply B1. apply in_app_or in X as [X|X]; apply in_or_app; [now left|right; apply in_or_app; now right].
      * apply IH; [exact HIn|]. now apply app_nodup_r in Hn.
    + exact Hci.
    + exists (if made2 then set_nth k r2 rs else rs). split; [|split].
      * unfold p2_ok. cbn [p2_routes p2_unrouted p2_idxs]. split; [|split; [|split]].
        -- destruct made2; [|exact O1]. now apply set_nth_Forall2.
        -- destruct made2.
           ++ apply (Permutation_app_inv_l (nth k rs [])). rewrite app_assoc, (set_nth_concat k r2 rs Hkr). rewrite <- O2.
              rewrite <- app_assoc. rewrite (Permutation_app_comm (concat rs) un2). rewrite app_assoc, F2. rewrite <- app_assoc. apply Permutation_app_head. apply Permutation_app_comm.
           ++ destruct (F4 eq_refl) as (_ & _ & ->). exact O2.
        -- destruct made2; [|exact O3]. apply (Forall2_set_right _ k r2 seeds rs 0%nat O3). apply F3. now apply (Forall2_nth_rel (fun s r => In s r) k 0%nat [] _ _ O3).
        -- apply Forall_forall. intros x Hx. rewrite Forall_forall in O4. apply O4. unfold rest in Hx. apply in_app_or in Hx as [Hx|Hx]; [rewrite <- (firstn_skipn p (p2_idxs s))|rewrite <- (firstn_skipn (S p) (p2_idxs s))]; apply in_or_app; auto.
      * apply (Nat.lt_le_trans _ (todo s)); [|exact HT]. unfold todo. cbn [p2_unrouted p2_made p2_first p2_nth p2_idxs].
        assert (EL : (length rest < length (p2_idxs s))%nat) by (unfold rest; rewrite app_length, firstn_length, skipn_length; lia).
        match goal with |- ((?a * ?b + _) < (?c * ?b + _))%nat => assert (a * b <= c * b)%nat end; [|lia]. apply Nat.mul_le_mono_r. lia.
      * apply Forall_forall. intros q Hq. apply in_map_iff in Hq as (u & <- & Hu). destruct (F6 u Hu) as (q & b & B1 & B2 & B3).
        exists rs, b, (nth k rs []), q. cbn [fst snd]. split; [exact O1|split; [now rewrite B2|split; [now right|split; [exact B1|now right]]]].
Qed.

Lemma loop_ok : seeds <> [] \/ seeds = [] /\ N = 1%nat \/ seeds = [] /\ N = 0%nat -> forall n st rs, (todo st < n)%nat -> p2_ok st rs ->
  exists st' rs' pts, p2_ok st' rs' /\ Forall p2_halfway pts /\
    forall fuel, (n <= fuel)%nat -> p2_loop ceps seps D d C L f mu seeds most repeated shuffled argp fuel st = Some (st', pts).
Proof using Hf Hshuf.
  intros Hse. induction n as [|n IH]; intros st rs Hn HO; [lia|].
  assert (Hh : p2_halfway (p2_routes st, p2_unrouted st)).
  { destruct HO as (O1 & O2 & _). exists rs, [], [], []. cbn [fst snd app]. split; [exact O1|split; [exact O2|split; [now left|split; [reflexivity|now left]]]]. }
  destruct (p2_unrouted st) as [|u un] eqn:Eu.
  - exists st, rs, [(p2_routes st, p2_unrouted st)]. split; [exact HO|]. rewrite Eu. split; [now constructor|]. intros [|fuel] Hfu; [lia|]. cbn [p2_loop]. now rewrite Eu.
  - assert (Hs : seeds <> []).
    { destruct Hse as [X|[(_ & X)|(_ & X)]]; [exact X| |]; destruct HO as (_ & O2 & _); rewrite X, Eu in O2; cbn in O2; symmetry in O2; apply Permutation_nil in O2; destruct (concat rs); discriminate. }
    pose proof (round_ok st rs Hs HO) as HR.
    destruct (p2_round ceps seps D d C L f mu seeds most repeated shuffled argp st) as [[st1 pts1]|st1] eqn:Er.
    + destruct HR as (rs1 & O1 & T1 & P1). destruct (IH st1 rs1) as (st' & rs' & pts & I1 & I2 & I3); [lia|exact O1|].
      exists st', rs', ((p2_routes st, p2_unrouted st) :: pts1 ++ pts). split; [exact I1|split].
      * rewrite Eu. constructor; [exact Hh|]. apply Forall_app. now split.
      * intros [|fuel] Hfu; [lia|]. cbn [p2_loop]. rewrite Eu, Er, (I3 fuel) by lia. reflexivity.
    + subst st1. exists st, rs, [(p2_routes st, p2_unrouted st)]. split; [exact HO|]. rewrite Eu. split; [now constructor|]. intros [|fuel] Hfu; [lia|]. cbn [p2_loop]. now rewrite Eu, Er.
Qed.

(** ** Solutions from route states *)
Lemma closed_ok : forall routes rs, Forall2 on_route routes rs ->
  exists rs', routestates2solution f routes = (encode rs', routes_cost D rs') /\ Forall2 (@Permutation nat) rs' rs /\ Forall (good ceps seps D d C L) rs' /\
    removelast (fst (routestates2solution f routes)) = open_sol rs'.
Proof using Hf HfL.
  intros routes rs H.
  assert (G : exists rs', flat_map (fun st => rs_route (close_route f st)) routes = open_sol rs' /\ sumZ (map (fun st => rs_cost (close_route f st)) routes) = routes_cost D rs' /\
    Forall2 (@Permutation nat) rs' rs /\ Forall (good ceps seps D d C L) rs').
  { induction H as [|st r routes rs Hr _ IH]; [exists []; repeat split; constructor|]. destruct IH as (rs' & I1 & I2 & I3 & I4).
    destruct (close_on_route _ _ _ _ _ _ _ _ Hf HfL st r Hr) as (r' & C1 & C2 & _). exists (r' :: rs'). split; [|split; [|split]].
    - cbn [flat_map]. rewrite I1, (or_route _ _ _ _ _ _ _ _ _ C1). reflexivity.
    - unfold routes_cost in *. unfold sumZ in *. cbn [map fold_right]. rewrite I2, (or_cost _ _ _ _ _ _ _ _ _ C1). reflexivity.
    - constructor; assumption.
    - constructor; [|exact I4]. split; [apply C1|apply C1]. }
  destruct G as (rs' & G1 & G2 & G3 & G4). exists rs'. unfold routestates2solution. rewrite G1, G2, open_sol_encode. cbn [fst].
  split; [reflexivity|split; [exact G3|split; [exact G4|]]]. rewrite <- open_sol_encode. apply removelast_last.
Qed.
Lemma concat_perm : forall a b : list (list nat), Forall2 (@Permutation nat) a b -> Permutation (concat a) (concat b).
Proof. intros a b H. induction H; [constructor|]. cbn. now apply Permutation_app. Qed.

Lemma start_ok order : Permutation order (seq 1 (N - 1)) -> NoDup seeds -> customers_in N seeds -> p2_ok (p2_start D d C seeds order) (map (fun s => [s]) seeds).
Proof using Halone Hshuf argp.
  intros Ho Hn Hc. unfold p2_ok, p2_start. cbn [p2_routes p2_unrouted p2_idxs]. split; [|split; [|split]].
  - clear Hn Hshuf. induction seeds as [|s l IH]; [constructor|]. cbn [map]. constructor; [|apply IH; intros j Hj; apply Hc; now right].
    assert (Hs : (1 <= s < N)%nat) by (apply Hc; now left). apply new_on_route; [exact Hs|now apply Halone].
  - assert (E : concat (map (fun s => [s]) seeds) = seeds) by (clear; induction seeds; cbn; congruence). rewrite E.
    assert (Hno : NoDup order) by (apply (Permutation_NoDup (Permutation_sym Ho)), seq_NoDup).
    rewrite <- Ho. apply NoDup_Permutation; [|exact Hno|].
    + clear - Hn Hno. assert (G : forall x, In x seeds -> ~ In x (filter (fun n => negb (existsb (Nat.eqb n) seeds)) order)).
      { intros x Hx X. apply filter_In in X as (_ & X). rewrite (proj2 (existsb_exists (Nat.eqb x) seeds)) in X; [discriminate|]. exists x. split; [exact Hx|apply Nat.eqb_refl]. }
      assert (HN2 : NoDup (filter (fun n => negb (existsb (Nat.eqb n) seeds)) order)) by now apply NoDup_filter.
      revert G HN2. generalize (filter (fun n => negb (existsb (Nat.eqb n) seeds)) order). intros q G HN2. induction seeds as [|s l IH]; [exact HN2|].
      apply NoDup_cons_iff in Hn as (A & B). cbn. constructor; [|apply IH; [exact B|intros x Hx; apply G; now right]].
      intros X. apply in_app_or in X as [X|X]; [auto|]. apply (G s); [now left|exact X].
    + intros x. rewrite in_app_iff, filter_In. split.
      * intros [X|(X & _)]; [|exact X]. apply (Permutation_in _ (Permutation_sym Ho)), in_seq. specialize (Hc x X). lia.
      * intros X. destruct (existsb (Nat.eqb x) seeds) eqn:Ex; [|right; now split]. apply existsb_exists in Ex as (y & Hy & Ey). apply Nat.eqb_eq in Ey as ->. now left.
  - clear. induction seeds; cbn; constructor; [now left|assumption].
  - constructor.
Qed.

Lemma phase_two_ok order : Permutation order (seq 1 (N - 1)) -> NoDup seeds -> customers_in N seeds -> (seeds = [] -> (N <= 1)%nat) ->
  exists s2 pts fuel0,
    (forall fuel, (fuel0 <= fuel)%nat -> phase_two ceps seps D d C L f mu seeds most repeated shuffled argp order fuel = Some (s2, pts)) /\
    Forall p2_halfway pts /\
    match s2 with
    | None => True
    | Some (sol, c) => exists rs, sol = encode rs /\ c = routes_cost D rs /\ serves N D d C L ceps seps rs /\ Forall2 (fun s r => In s r) seeds rs
    end.
Proof using Hf HfL Halone Hshuf.
  intros Ho Hn Hc HN. pose proof (start_ok order Ho Hn Hc) as HO.
  assert (Hse : seeds <> [] \/ seeds = [] /\ N = 1%nat \/ seeds = [] /\ N = 0%nat) by (destruct seeds as [|a l] eqn:E; [right; specialize (HN eq_refl); assert (X : N = 1%nat \/ N = 0%nat) by lia; destruct X; auto|left; discriminate]).
  destruct (loop_ok Hse (S (todo (p2_start D d C seeds order))) _ _ (le_n _) HO) as (st & rs & pts & I1 & I2 & I3).
  destruct (p2_unrouted st) as [|u un] eqn:Eu.
  - destruct I1 as (O1 & O2 & O3 & _). destruct (closed_ok _ _ O1) as (rs' & C1 & C2 & C3 & _).
    exists (Some (routestates2solution f (p2_routes st))), pts, (S (todo (p2_start D d C seeds order))). split; [|split; [exact I2|]].
    + intros fuel Hfu. unfold phase_two. rewrite (I3 fuel Hfu). cbn [option_map fst snd]. now rewrite Eu.
    + rewrite C1. exists rs'. split; [reflexivity|split; [reflexivity|split]].
      * rewrite Eu, app_nil_r in O2. split; [unfold covers; now rewrite (concat_perm _ _ C2)|split; eapply Forall_impl; try exact C3; now intros r (A & B)].
      * clear - O3 C2. revert O3. generalize seeds. induction C2 as [|a b la lb P _ IH]; intros l O3; inversion O3; subst; constructor; [|now apply IH].
        now apply (Permutation_in _ (Permutation_sym P)).
  - exists None, pts, (S (todo (p2_start D d C seeds order))). split; [|split; [exact I2|exact I]].
    intros fuel Hfu. unfold phase_two. rewrite (I3 fuel Hfu). cbn [option_map fst snd]. now rewrite Eu.
Qed.
End Two.
