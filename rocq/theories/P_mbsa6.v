(** * Matching based savings: the points of interruption; a solver for the integer program *)
From Verif Require Import Spec Spec_inter Spec_savings Spec_rfcs Spec_mbsa PyBase M_mbsa P_base P_inter P_mbsa P_mbsa2 P_mbsa3 P_mbsa4 P_mbsa5.
Require Import Sorting.Sorted ZifyBool ZifyNat Lia.
Notation asc := (StronglySorted lt).

Section Points.
Variables (ceps seps : Z) (N : nat) (D : matrix) (d : demands) (C L : limit) (minimize_K : bool) (W : Z)
          (f : tsp) (second : bool) (mm : savings -> nat -> mip).
Hypothesis Hd0 : d 0%nat = 0.
Hypothesis HN : (2 <= N)%nat.
Hypothesis Hsym : symmetric D.
Hypothesis Hsol : solver N D f.
Hypothesis Halone : served_alone N D d C L ceps seps.
Hypothesis Hmm : forall sv n x, mm sv n = MipOptimal x -> optimal sv x.
Hypothesis Hpart : everyone_has_a_partner N d C L ceps seps f.
Let calc := calc_savings ceps seps d C L f W.
Let inv := Inv ceps seps N d C L W f.

Lemma start_has : Forall (has (mb_cache (mb_start ceps seps N d C L W f))) (mb_sets (mb_start ceps seps N d C L W f)).
Proof using All.
  pose proof (start_inv ceps seps N D d C L W f HN Hsol Halone) as HI. set (st := mb_start ceps seps N d C L W f) in *.
  assert (Hs : mb_sets st = mb_sets0 N) by apply start_sets. pose proof HI as [I1 I2 I3 I4 I5].
  assert (Hat : forall i, (i < N - 1)%nat -> (i < length (mb_sets st))%nat /\ set_at (mb_sets st) i = [S i]).
  { intros i Hi. rewrite Hs. unfold mb_sets0, range, set_at. rewrite map_length, seq_length. split; [lia|].
    rewrite (nth_indep _ [] [0%nat]) by (rewrite map_length, seq_length; lia). change [0%nat] with ((fun i => [i]) 0%nat). rewrite map_nth, seq_nth by lia. reflexivity. }
  apply Forall_forall. intros s Hin. rewrite Hs in Hin. apply in_map_iff in Hin. destruct Hin as (i & <- & Hi). apply in_seq in Hi.
  destruct (Hpart i ltac:(lia)) as (j & u & Hj & Hne & HJ & HF).
  destruct (Hat (i - 1)%nat ltac:(lia)) as [La Ea]. destruct (Hat (j - 1)%nat ltac:(lia)) as [Lb Eb].
  replace (S (i - 1)) with i in Ea by lia. replace (S (j - 1)) with j in Eb by lia.
  assert (Hab : (i - 1 <> j - 1)%nat) by lia.
  assert (Nd : NoDup ([i] ++ [j])) by (simpl; constructor; [intros [X|[]]; congruence|repeat constructor; intros []]).
  assert (Aj : forall x : nat, asc [x]) by (intros; repeat constructor).
  rewrite (joined_unique _ _ _ _ HJ (union_joined _ _ (Aj j) Nd)) in HF.
  assert (Hboth : cap_fits ceps d C [i] [j] && len_fits seps L f [i] [j] = true) by (apply (fits_wt ceps seps d C L f W); auto).
  assert (Hboth' : cap_fits ceps d C [j] [i] && len_fits seps L f [j] [i] = true).
  { rewrite <- Hboth. unfold cap_fits, len_fits. rewrite (union_comm [j] [i]), Z.add_comm by apply Aj. reflexivity. }
  destruct (I5 _ _ La Lb Hab) as [X|X]; destruct (I4 _ _ _ X) as (_ & _ & _ & _ & _ & Pr); rewrite Ea, Eb in Pr; now apply Pr.
Qed.
Lemma join_has i j w st : inv st -> In (w, (i, j)) (mb_sav st) -> w <> W -> Forall (has (mb_cache st)) (mb_sets st) ->
  Forall (has (mb_cache st)) (mb_joined i j (mb_sets st)).
Proof using All.
  intros [I1 I2 I3 I4 I5] Hin HW HH. destruct (I4 _ _ _ Hin) as (Hne & Hi & Hj & Ew & Hpr).
  pose proof (Forall_perm' _ _ _ (pair_perm [] (mb_sets st) i j Hne Hi Hj) HH) as F2. inversion F2 as [|? ? _ F2']; subst. inversion F2' as [|? ? _ F2'']; subst.
  eapply Forall_perm'; [apply Permutation_sym, mb_joined_perm; assumption|]. constructor; [|assumption].
  apply Hpr. unfold wt in HW. destruct (cap_fits _ _ _ _ _); [reflexivity|]. now elim HW.
Qed.
Lemma grows_forall c c' (l : list nodeset) : grows c c' -> Forall (has c) l -> Forall (has c') l.
Proof using All. intros G H. eapply Forall_impl; [|exact H]. intros s. apply G. Qed.

Lemma filtered_keys i j w st : inv st -> In (w, (i, j)) (mb_sav st) -> w <> W ->
  forall c, grows (mb_cache st) c ->
  forall w0 a b, In (w0, (a, b)) (filtered i j (mb_sav st)) ->
    a <> b /\ (a < length (mb_joined i j (mb_sets st)))%nat /\ (b < length (mb_joined i j (mb_sets st)))%nat /\
    w0 = wt ceps seps d C L f W (set_at (mb_joined i j (mb_sets st)) a) (set_at (mb_joined i j (mb_sets st)) b) /\
    priced ceps seps d C L f c (set_at (mb_joined i j (mb_sets st)) a) (set_at (mb_joined i j (mb_sets st)) b).
Proof using All.
  intros [I1 I2 I3 I4 I5] Hin HW c Hc w0 a b Hab. destruct (I4 _ _ _ Hin) as (Hne & Hi & Hj & Ew & Hpr).
  apply in_filtered in Hab. destruct Hab as (a0 & b0 & H0 & N1 & N2 & N3 & N4 & -> & ->). destruct (I4 _ _ _ H0) as (Q1 & Q2 & Q3 & Q4 & Q5).
  rewrite mb_joined_length by assumption. rewrite !mb_joined_other by assumption. split; [intros X; apply phi_inj in X; auto|].
  split; [now apply phi_lt|]. split; [now apply phi_lt|]. split; [assumption|]. now apply (priced_grows ceps seps d C L f (mb_cache st)).
Qed.

Theorem loop_points_ok : forall fuel st, inv st -> Forall (has (mb_cache st)) (mb_sets st) ->
  forall p s, In (p, s) (loop_points ceps seps d C L minimize_K W f second mm fuel st) -> p = Choosing \/ p = Stored \/ p = Pricing ->
  exists rs, mbsa_interrupted ceps seps D d C L W s = GreedySol (encode rs) /\ serves N D d C L ceps seps rs.
Proof using All.
  induction fuel as [|fuel IH]; intros st HI HH p s; cbn [loop_points]; [intros []|]. intros [E|Hin] Hp.
  { injection E as <- <-. destruct st as [sv sets c]. pose proof HI as [I1 I2 I3 I4 I5]. simpl in *. unfold mbsa_interrupted.
    exact (greedy_merge_ok ceps seps N D d C L W f Hd0 Hsym Hsol sets c sv I1 I3 I4 I2 HH). }
  destruct (mb_decide W minimize_K second mm st) as [| | | | |i j] eqn:Ed; try (destruct Hin; fail); [now apply (IH st HI HH p s Hin)|].
  destruct (decide_join ceps seps N D d C L minimize_K W f second mm Hd0 HN Hsol Halone Hmm st i j Ed) as (w & Hk & HW & _).
  pose proof (join_inv ceps seps N d C L W f Hd0 i j w st HI Hk HW) as HI'. pose proof (join_has i j w st HI Hk HW HH) as HH'.
  assert (Es : mb_sets (mb_join calc i j st) = mb_joined i j (mb_sets st)) by (unfold mb_join; destruct (price _ _ _); reflexivity).
  pose proof HI as [I1 I2 I3 I4 I5]. destruct (I4 _ _ _ Hk) as (Hne & Hi & Hj & Ew & _).
  pose proof (inv_fits _ _ _ _ _ _ _ _ _ HI') as Hfit. fold calc in Hfit. rewrite Es in Hfit.
  assert (Any : forall c, cache_ok f c -> grows (mb_cache st) c ->
     exists rs, mbsa_interrupted ceps seps D d C L W (Mbst (filtered i j (mb_sav st)) (mb_joined i j (mb_sets st)) c) = GreedySol (encode rs) /\ serves N D d C L ceps seps rs).
  { intros c Hc Hg. apply (greedy_merge_ok ceps seps N D d C L W f Hd0 Hsym Hsol); [now apply mb_joined_ok|assumption|now apply (filtered_keys i j w)|assumption|now apply (grows_forall (mb_cache st))]. }
  apply in_app_or in Hin. destruct Hin as [Hin|Hin].
  - unfold join_points in Hin. simpl in Hin. destruct Hin as [E|[E|[E|Hin]]].
    + injection E as <- <-. now destruct Hp as [|[|]].
    + injection E as <- <-. now destruct Hp as [|[|]].
    + injection E as <- <-. apply Any; [assumption|apply grows_refl].
    + apply in_map_iff in Hin. destruct Hin as (c & [= <- <-] & Hc).
      destruct (price_caches_ok ceps seps d C L f W (new_tasks (moved i j) (mb_joined i j (mb_sets st))) (mb_cache st) c I3 Hc) as [K1 K2]. now apply Any.
  - apply (IH (mb_join calc i j st) HI') with (p := p); [|assumption|assumption]. rewrite Es.
    assert (G : grows (mb_cache st) (mb_cache (mb_join calc i j st))).
    { unfold mb_join. destruct (price_ok ceps seps d C L f W (new_tasks (moved i j) (mb_joined i j (mb_sets st))) (mb_cache st) I3) as (_ & _ & P3 & _).
      fold calc in P3. destruct (price _ _ _). exact P3. }
    now apply (grows_forall (mb_cache st)).
Qed.
Theorem points_ok fuel p s : In (p, s) (mbsa_points ceps seps N d C L minimize_K W f second mm fuel) -> p = Choosing \/ p = Stored \/ p = Pricing ->
  exists rs, mbsa_interrupted ceps seps D d C L W s = GreedySol (encode rs) /\ serves N D d C L ceps seps rs.
Proof using All.
  unfold mbsa_points. intros Hin Hp. apply in_app_or in Hin. destruct Hin as [Hin|Hin].
  - unfold start_points in Hin. apply in_map_iff in Hin. destruct Hin as (c & [= <- _] & _). now destruct Hp as [|[|]].
  - apply (loop_points_ok fuel _ (start_inv ceps seps N D d C L W f HN Hsol Halone) start_has p s Hin Hp).
Qed.
End Points.

(** At the first point nothing is known yet. *)
Lemma first_point_fails ceps seps N D d C L minimize_K W f second mm fuel : (3 <= N)%nat ->
  exists s, In (Starting, s) (mbsa_points ceps seps N d C L minimize_K W f second mm fuel) /\
    mbsa_interrupted ceps seps D d C L W s = GreedyKeyError.
Proof.
  intros HN. exists (Mbst [] (mb_sets0 N) []). split.
  - unfold mbsa_points, start_points. apply in_or_app. left. apply in_map_iff. exists []. split; [reflexivity|].
    unfold mb_sets0, range. destruct N as [|[|[|n]]]; try lia. simpl. unfold calc_caches. destruct (exceeds _ _ _); [now left|].
    destruct (get_tsp _ _ _) as [e12 c1]. destruct (exceeds _ _ _); [now left|]. destruct (get_tsp _ _ _) as [e1 c2]. destruct (get_tsp _ _ _) as [e2 c3]. now left.
  - unfold mbsa_interrupted, greedy_merge. simpl. unfold mb_sets0, range. destruct N as [|[|[|n]]]; try lia. reflexivity.
Qed.

(** ** A solver that tries everything *)
Fixpoint all_bools (n : nat) : list (list bool) :=
  match n with O => [[]] | S k => flat_map (fun x => [true :: x; false :: x]) (all_bools k) end.
Lemma all_bools_in : forall x, In x (all_bools (length x)).
Proof. induction x as [|b x IH]; simpl; [now left|]. apply in_flat_map. exists x. split; [assumption|]. destruct b; simpl; auto. Qed.
Definition rows_ok (w : savings) (x : list bool) : bool :=
  Nat.eqb (length x) (length w) &&
  forallb (fun k => Nat.eqb (length (filter (fun e => Nat.eqb (fst (snd e)) k) (picked x w))) 1) (map (fun e => fst (snd e)) w).
Lemma rows_ok_spec w x : rows_ok w x = true <-> one_per_row w x.
Proof.
  unfold rows_ok, one_per_row. rewrite andb_true_iff, Nat.eqb_eq, forallb_forall. split; intros [H1 H2]; (split; [assumption|]); intros k Hk; apply Nat.eqb_eq; auto; apply Nat.eqb_eq; auto.
Qed.
Fixpoint first_best (w : savings) (best : list bool) (l : list (list bool)) : list bool :=
  match l with [] => best | x :: t => first_best w (if rows_ok w x && (total w best <? total w x) then x else best) t end.
Lemma first_best_ok w : forall l best, one_per_row w best ->
  one_per_row w (first_best w best l) /\ total w best <= total w (first_best w best l) /\
  forall x, In x l -> one_per_row w x -> total w x <= total w (first_best w best l).
Proof.
  induction l as [|y l IH]; intros best Hb; simpl; [split; [assumption|]; split; [lia|intros ? []]|].
  destruct (rows_ok w y && (total w best <? total w y)) eqn:E.
  - apply andb_prop in E. destruct E as [E1 E2]. apply rows_ok_spec in E1. destruct (IH y E1) as (A & B & G). split; [assumption|]. split; [lia|].
    intros x [<-|Hx] Ho; [assumption|now apply G].
  - destruct (IH best Hb) as (A & B & G). split; [assumption|]. split; [assumption|]. intros x [<-|Hx] Ho; [|now apply G].
    apply rows_ok_spec in Ho. rewrite Ho in E. simpl in E. lia.
Qed.
(** The last pair of each row *)
Fixpoint last_of_rows (w : savings) : list bool :=
  match w with [] => [] | e :: t => negb (existsb (fun e' => Nat.eqb (fst (snd e')) (fst (snd e))) t) :: last_of_rows t end.
Lemma last_of_rows_ok w : one_per_row w (last_of_rows w).
Proof.
  induction w as [|e w [IL IR]]; [split; [reflexivity|intros k []]|]. split; [simpl; now rewrite IL|]. intros k Hk. simpl last_of_rows. rewrite picked_cons.
  assert (Out : ~ In k (map (fun e0 : Z * (nat * nat) => fst (snd e0)) w) -> filter (fun e0 : Z * (nat * nat) => Nat.eqb (fst (snd e0)) k) (picked (last_of_rows w) w) = []).
  { intros Hn. destruct (filter _ (picked (last_of_rows w) w)) as [|a l] eqn:F; [reflexivity|]. exfalso. apply Hn.
    assert (X : In a (filter (fun e0 : Z * (nat * nat) => Nat.eqb (fst (snd e0)) k) (picked (last_of_rows w) w))) by (rewrite F; now left).
    apply filter_In in X. destruct X as [X1 X2]. apply picked_in in X1. apply Nat.eqb_eq in X2. apply in_map_iff. now exists a. }
  destruct (existsb (fun e' => Nat.eqb (fst (snd e')) (fst (snd e))) w) eqn:E; simpl negb.
  - cbn iota. apply IR. simpl in Hk. destruct Hk as [<-|Hk]; [|assumption]. apply existsb_exists in E. destruct E as (e' & H1 & H2). apply Nat.eqb_eq in H2. apply in_map_iff. now exists e'.
  - cbn iota. simpl filter. destruct (Nat.eqb_spec (fst (snd e)) k) as [Ek|Ek].
    + simpl. rewrite Out; [reflexivity|]. intros X. apply in_map_iff in X. destruct X as (e' & H1 & H2).
      assert (existsb (fun e' : Z * (nat * nat) => Nat.eqb (fst (snd e')) (fst (snd e))) w = true) by (apply existsb_exists; exists e'; split; [assumption|]; apply Nat.eqb_eq; congruence). congruence.
    + apply IR. simpl in Hk. now destruct Hk.
Qed.
Definition brute (w : savings) (n : nat) : mip := MipOptimal (first_best w (last_of_rows w) (all_bools (length w))).
Lemma brute_optimal : forall sv n x, brute sv n = MipOptimal x -> optimal sv x.
Proof.
  intros sv n x [= <-]. destruct (first_best_ok sv (all_bools (length sv)) (last_of_rows sv) (last_of_rows_ok sv)) as (A & _ & G). split; [assumption|].
  intros y Hy. apply G; [|assumption]. destruct Hy as [<- _]. apply all_bools_in.
Qed.
Lemma brute_answers : forall sv n, exists x, brute sv n = MipOptimal x.
Proof. intros. now eexists. Qed.

(** ** A TSP solver that tries everything *)
Fixpoint inserts (x : nat) (l : list nat) : list (list nat) :=
  (x :: l) :: match l with [] => [] | y :: t => map (cons y) (inserts x t) end.
Fixpoint orders (l : list nat) : list (list nat) := match l with [] => [[]] | x :: t => flat_map (inserts x) (orders t) end.
Lemma inserts_mid x : forall a b, In (a ++ x :: b) (inserts x (a ++ b)).
Proof. induction a as [|y a IH]; intros b; [simpl; destruct b; now left|]. simpl. right. now apply in_map. Qed.
Lemma inserts_perm x : forall l p, In p (inserts x l) -> Permutation p (x :: l).
Proof.
  induction l as [|y l IH]; intros p; simpl; intros [<-|H]; try reflexivity; [destruct H|]. apply in_map_iff in H. destruct H as (q & <- & H).
  rewrite (IH q H). apply perm_swap.
Qed.
Lemma orders_complete : forall l p, Permutation p l -> In p (orders l).
Proof.
  induction l as [|x l IH]; intros p HP; [apply Permutation_sym, Permutation_nil in HP; subst; now left|].
  assert (Hx : In x p) by (eapply Permutation_in; [apply Permutation_sym; exact HP|now left]). destruct (in_split _ _ Hx) as (a & b & ->).
  apply in_flat_map. exists (a ++ b). split; [|apply inserts_mid]. apply IH. now apply Permutation_cons_inv with (a := x), Permutation_trans with (a ++ x :: b); [apply Permutation_middle|].
Qed.
Lemma orders_sound : forall l p, In p (orders l) -> Permutation p l.
Proof.
  induction l as [|x l IH]; intros p; simpl; [intros [<-|[]]; constructor|]. intros H. apply in_flat_map in H. destruct H as (q & H1 & H2).
  rewrite (inserts_perm x q p H2). constructor. now apply IH.
Qed.
Fixpoint cheapest (D : matrix) (best : list nat) (l : list (list nat)) : list nat :=
  match l with [] => best | p :: t => cheapest D (if route_cost D p <? route_cost D best then p else best) t end.
Lemma cheapest_ok D : forall l best, (cheapest D best l = best \/ In (cheapest D best l) l) /\ route_cost D (cheapest D best l) <= route_cost D best /\
  forall p, In p l -> route_cost D (cheapest D best l) <= route_cost D p.
Proof.
  induction l as [|q l IH]; intros best; simpl; [split; [now left|]; split; [lia|intros ? []]|].
  destruct (IH (if route_cost D q <? route_cost D best then q else best)) as (A & B & G). destruct (Z.ltb_spec (route_cost D q) (route_cost D best)).
  - split; [destruct A as [->|A]; auto|]. split; [lia|]. intros p [<-|Hp]; [assumption|now apply G].
  - split; [destruct A as [->|A]; auto|]. split; [assumption|]. intros p [<-|Hp]; [lia|now apply G].
Qed.
Definition brute_tsp (D : matrix) : tsp := fun l => let r := cheapest D (tl l) (orders (tl l)) in (wrap r, route_cost D r).
Lemma brute_tsp_solver N D : solver N D (brute_tsp D).
Proof.
  intros l _ _ _. unfold brute_tsp. simpl tl. exists (cheapest D l (orders l)). split; [reflexivity|].
  destruct (cheapest_ok D (orders l) l) as ([->|H] & _); [reflexivity|now apply orders_sound].
Qed.
Lemma brute_tsp_exact N D : exact_solver N D (brute_tsp D).
Proof. intros l p _ _ _ HP. unfold brute_tsp. simpl. now apply (cheapest_ok D (orders l) l), orders_complete. Qed.
