(** * Proofs: lr3opt with its default parameters *)
From Coq Require Import ZifyBool ZifyNat Lia List Permutation.
From Verif Require Import Spec Spec_inter Spec_savings Spec_rfcs Spec_all Spec_3optstar Spec_lr3opt Spec_lr3opt2 PyBase M_util M_cvrp_ops M_psavings M_3optstar M_lr3opt M_lr3opt2 M_lr3opt3 P_base P_lr3opt P_savfam P_lr3opt3 P_lr3opt4 P_lr3opt5 P_lr3opt6 P_lr3opt7.
Import ListNotations.
Local Open Scope Z_scope.

Lemma fold_max l : forall x, (In (fold_left Z.max l x) (x :: l)) /\ forall y, In y (x :: l) -> y <= fold_left Z.max l x.
Proof.
  induction l as [|z l IH]; intros x; cbn [fold_left]; [split; [now left|intros y [->|[]]; lia]|]. destruct (IH (Z.max x z)) as [H1 H2]. split.
  - destruct H1 as [H1|H1]; [|right; now right]. rewrite <- H1. destruct (Z.max_spec x z) as [[_ ->]|[_ ->]]; [right; now left|now left].
  - intros y [->|[->|Hy]]; [|..|apply H2; now right]; specialize (H2 _ (or_introl eq_refl)); lia.
Qed.
Lemma fold_min l : forall x, (In (fold_left Z.min l x) (x :: l)) /\ forall y, In y (x :: l) -> fold_left Z.min l x <= y.
Proof.
  induction l as [|z l IH]; intros x; cbn [fold_left]; [split; [now left|intros y [->|[]]; lia]|]. destruct (IH (Z.min x z)) as [H1 H2]. split.
  - destruct H1 as [H1|H1]; [|right; now right]. rewrite <- H1. destruct (Z.min_spec x z) as [[_ ->]|[_ ->]]; [now left|right; now left].
  - intros y [->|[->|Hy]]; [|..|apply H2; now right]; specialize (H2 _ (or_introl eq_refl)); lia.
Qed.
Lemma np_max_spec l : l <> [] -> In (np_max l) l /\ forall y, In y l -> y <= np_max l.
Proof. destruct l as [|x l]; [easy|]. intros _. apply fold_max. Qed.
Lemma np_min_spec l : l <> [] -> In (np_min l) l /\ forall y, In y l -> np_min l <= y.
Proof. destruct l as [|x l]; [easy|]. intros _. apply fold_min. Qed.

Lemma get_max_largest N D sol : sol <> [] -> (forall x, In x sol <-> (x < N)%nat) -> largest N D (get_max D sol).
Proof.
  intros Hne Hin. unfold get_max. set (l := flat_map _ _).
  assert (Hl : forall v, In v l <-> exists i j, (i < N)%nat /\ (j < N)%nat /\ D i j = v).
  { intros v. unfold l. rewrite in_flat_map. split.
    - intros (i & Hi & Hv). apply in_map_iff in Hv. destruct Hv as (j & E & Hj). exists i, j. split; [now apply Hin|]. split; [now apply Hin|exact E].
    - intros (i & j & Hi & Hj & E). exists i. split; [now apply Hin|]. apply in_map_iff. exists j. split; [exact E|now apply Hin]. }
  assert (Hn : l <> []).
  { destruct sol as [|x sol]; [easy|]. intros E. assert (G : In (D x x) l) by (apply Hl; exists x, x; repeat split; apply Hin; now left). rewrite E in G. easy. }
  destruct (np_max_spec l Hn) as [H1 H2]. split; [now apply Hl|]. intros i j Hi Hj. apply H2, Hl. now exists i, j.
Qed.
Lemma closest_nearest N D m j : (2 <= N)%nat -> (j < N)%nat -> (forall i, (i < N)%nat -> D i j <= m) -> nearest N D j (closest_neighbor N D m j).
Proof.
  intros HN Hj Hm. unfold closest_neighbor. set (l := map _ _).
  assert (Hl : forall v, In v l <-> exists i, (i < N)%nat /\ (if Nat.eqb i j then m else D i j) = v).
  { intros v. unfold l. rewrite in_map_iff. unfold range. split; intros (i & Hi & Hx); exists i; [apply in_seq in Hx; split; [lia|exact Hi]|split; [exact Hx|apply in_seq; lia]]. }
  assert (Hn : l <> []) by (intros E; assert (G : In m l) by (apply Hl; exists j; split; [exact Hj|now rewrite Nat.eqb_refl]); rewrite E in G; easy).
  destruct (np_min_spec l Hn) as [H1 H2].
  assert (Hub : forall i, (i < N)%nat -> i <> j -> np_min l <= D i j).
  { intros i Hi Hij. apply H2, Hl. exists i. split; [exact Hi|]. destruct (Nat.eqb_spec i j); [contradiction|reflexivity]. }
  split; [|exact Hub]. apply Hl in H1. destruct H1 as (i & Hi & E). destruct (Nat.eqb_spec i j) as [->|Hij]; [|now exists i].
  exists (if Nat.eqb j 0 then 1 else 0)%nat. assert (Hk : ((if Nat.eqb j 0 then 1 else 0) < N)%nat /\ (if Nat.eqb j 0 then 1 else 0)%nat <> j) by (destruct (Nat.eqb_spec j 0); lia).
  destruct Hk as [Hk1 Hk2]. split; [exact Hk1|]. split; [exact Hk2|]. specialize (Hub _ Hk1 Hk2). specialize (Hm _ Hk1). lia.
Qed.

(** ** The start *)
Definition is_tour (N : nat) (f : tsp) (tour : list nat) : Prop := fst (f (seq 0 N)) = 0%nat :: tour ++ [0%nat] /\ Permutation tour (seq 1 (N - 1)).
Lemma solver_tour N D f : (2 <= N)%nat -> solver N D f -> exists tour, is_tour N f tour.
Proof.
  intros HN Hf. destruct (Hf (seq 1 (N - 1))) as (l' & E & HP); [destruct N as [|[|N]]; [lia|lia|discriminate]|apply seq_NoDup|intros j Hj; apply in_seq in Hj; lia|].
  exists l'. unfold is_tour. destruct N as [|N]; [lia|]. cbn [seq]. rewrite Nat.sub_succ, Nat.sub_0_r in *. rewrite E. now split.
Qed.
Lemma start_is N f tour : is_tour N f tour -> init_with_tsp N f = encode [tour; []].
Proof. intros [E _]. unfold init_with_tsp, range. rewrite Nat.sub_0_r, E. unfold encode. cbn. now rewrite <- app_assoc. Qed.
Lemma start_covers N f tour : is_tour N f tour -> covers N [tour; []].
Proof. intros [_ H]. unfold covers. cbn [concat]. now rewrite !app_nil_r. Qed.
Lemma start_nodes N f tour : (2 <= N)%nat -> is_tour N f tour -> forall x, In x (encode [tour; []]) <-> (x < N)%nat.
Proof.
  intros HN [_ HP] x. unfold encode. cbn [flat_map app]. cbn [In]. rewrite !in_app_iff. cbn [In].
  assert (In x tour <-> (1 <= x < N)%nat).
  { split; intros H; [apply (Permutation_in _ HP), in_seq in H; lia|apply (Permutation_in _ (Permutation_sym HP)), in_seq; lia]. }
  rewrite H. lia.
Qed.

(** ** The multipliers *)
Lemma set_iff lim : is_set lim = true <-> limit_set lim.
Proof. unfold is_set, truthy, limit_set. destruct lim as [c|]; [|split; [discriminate|easy]]. destruct (Z.eqb_spec c 0); split; intros; try discriminate; try contradiction; try easy. Qed.
Lemma default_spec N D d C L f : (2 <= N)%nat -> solver N D f ->
  exists m near, largest N D m /\ (forall j, (j < N)%nat -> nearest N D j (near j)) /\
    exists K lC lL, default_multipliers N D d C L (init_with_tsp N f) = (K, lC, lL) /\
      (limit_set C \/ limit_set L -> K = 20 * Z.of_nat N * m) /\ (~ limit_set C -> ~ limit_set L -> K = 1) /\
      (limit_set C -> lC = Some (sumZ (map d (seq 0 N)))) /\ (~ limit_set C -> lC = None) /\
      (limit_set L -> lL = Some (2 * sumZ (map near (seq 0 N)))) /\ (~ limit_set L -> lL = None).
Proof.
  intros HN Hf. destruct (solver_tour N D f HN Hf) as (tour & Ht). rewrite (start_is N f tour Ht).
  pose proof (get_max_largest N D (encode [tour; []]) ltac:(discriminate) (start_nodes N f tour HN Ht)) as Hm. set (m := get_max D _) in *.
  exists m, (closest_neighbor N D m). split; [exact Hm|]. split.
  - intros j Hj. apply closest_nearest; [exact HN|exact Hj|]. intros i Hi. now apply (proj2 Hm).
  - unfold default_multipliers. fold m. eexists. eexists. eexists. split; [reflexivity|]. pose proof (set_iff C) as HC. pose proof (set_iff L) as HL.
    unfold range. rewrite Nat.sub_0_r.
    destruct (is_set C), (is_set L); cbn [orb]; repeat split; intros; try reflexivity; try tauto; intuition discriminate.
Qed.
Lemma sum_pos_in (g : nat -> Z) l x : (forall y, In y l -> 0 <= g y) -> In x l -> 0 < g x -> 0 < sumZ (map g l).
Proof.
  induction l as [|z l IH]; intros Hg Hx H; [easy|]. cbn [map]. rewrite sumZ_cons. pose proof (Hg z (or_introl eq_refl)) as Hz.
  assert (Hn : forall l, (forall y, In y l -> 0 <= g y) -> 0 <= sumZ (map g l)).
  { clear. induction l as [|z l IH]; intros Hg; [cbn; lia|]. cbn [map]. rewrite sumZ_cons. pose proof (Hg z (or_introl eq_refl)). specialize (IH (fun y H => Hg y (or_intror H))). lia. }
  pose proof (Hn l (fun y H => Hg y (or_intror H))) as Hl. destruct Hx as [->|Hx]; [lia|]. specialize (IH (fun y H => Hg y (or_intror H)) Hx H). lia.
Qed.
Lemma sum_nn (g : nat -> Z) l : (forall y, In y l -> 0 <= g y) -> 0 <= sumZ (map g l).
Proof. induction l as [|z l IH]; intros Hg; [cbn; lia|]. cbn [map]. rewrite sumZ_cons. pose proof (Hg z (or_introl eq_refl)). specialize (IH (fun y H => Hg y (or_intror H))). lia. Qed.
Lemma sum_zero_each (g : nat -> Z) l : (forall y, In y l -> 0 <= g y) -> sumZ (map g l) <= 0 -> forall x, In x l -> g x = 0.
Proof. intros Hg Hs x Hx. pose proof (Hg x Hx). destruct (Z.eq_dec (g x) 0); [assumption|]. pose proof (sum_pos_in g l x Hg Hx ltac:(lia)). lia. Qed.
Lemma largest_pos N D m : spread N D -> largest N D m -> 0 < m.
Proof. intros (i & j & Hi & Hj & H) [_ Hm]. specialize (Hm i j Hi Hj). lia. Qed.
Lemma near_nn N D near : nonneg_matrix D -> (forall j, (j < N)%nat -> nearest N D j (near j)) -> forall j, In j (seq 0 N) -> 0 <= near j.
Proof. intros DN H j Hj. apply in_seq in Hj. destruct (H j ltac:(lia)) as [(i & _ & _ & <-) _]. apply DN. Qed.

Lemma K_pos N m : (2 <= N)%nat -> 0 < m -> 0 < 20 * Z.of_nat N * m.
Proof. intros HN Hm. assert (0 < Z.of_nat N) by lia. nia. Qed.

Lemma default_result eps N D d C L inf f : Spec_all.problem N D d C L eps -> solver N D f -> forall fuel stop o,
  lr3opt_default eps eps N D d C L inf f fuel stop = Some o ->
  exists rs, serves N D d C L eps eps rs /\ (o = LrReturn (Some (encode rs)) \/ o = LrInterrupt (Some (encode rs))).
Proof.
  intros [P1 P2 P3 P4 P5 P6 P7 P8] Hf fuel stop o H. destruct (solver_tour N D f P1 Hf) as (tour & Ht). unfold lr3opt_default in H.
  destruct (default_multipliers _ _ _ _ _ _) as [[K lC] lL]. rewrite (start_is N f tour Ht) in H.
  exact (lr_result eps eps N D d C L K lC lL inf true None [tour; []] fuel stop o P1 P2 P3 P4 P6 P8 (start_covers N f tour Ht) H).
Qed.
Lemma default_ends eps N D d C L inf f : Spec_all.problem N D d C L eps -> solver N D f -> lagrangean N D d C L inf ->
  exists rs, serves N D d C L eps eps rs /\ ends_with (fun fuel => lr3opt_default eps eps N D d C L inf f fuel None) (LrReturn (Some (encode rs))).
Proof.
  intros HP Hf HL. pose proof HP as [P1 P2 P3 P4 P5 P6 P7 P8]. destruct (solver_tour N D f P1 Hf) as (tour & Ht).
  destruct (default_spec N D d C L f P1 Hf) as (m & near & Hm & Hnear & K & lC & lL & E & E1 & E2 & E3 & E4 & E5 & E6).
  pose proof (near_nn N D near P4 Hnear) as Hnn.
  assert (HlC : forall x, lC = Some x -> 0 <= x).
  { intros x Ex. destruct (is_set C) eqn:EC; [apply set_iff in EC; rewrite (E3 EC) in Ex; injection Ex as <-; apply sum_nn; intros; apply P6|].
    rewrite E4 in Ex; [discriminate|]. rewrite <- set_iff. congruence. }
  assert (HlL : forall x, lL = Some x -> 0 <= x).
  { intros x Ex. destruct (is_set L) eqn:EL; [apply set_iff in EL; rewrite (E5 EL) in Ex; pose proof (sum_nn near (seq 0 N) Hnn); assert (x = 2 * sumZ (map near (seq 0 N))) by congruence; lia|].
    rewrite E6 in Ex; [discriminate|]. rewrite <- set_iff. congruence. }
  assert (HE : exists fuel0 rs, serves N D d C L eps eps rs /\ forall fuel, (fuel0 <= fuel)%nat ->
    lr3opt_init eps eps D d C L K lC lL inf true None (Some (encode [tour; []])) fuel None = Some (LrReturn (Some (encode rs)))).
  { destruct HL as [(H1 & H2)|[(HT & Hs & Ha)|(HC & Hs & (n & Hn & Hd) & (M & HM))]].
    - apply lr_unlimited; try assumption; [rewrite (E2 H1 H2); lia|now apply (start_covers N f)].
    - assert (HK : 0 < K).
      { pose proof (largest_pos N D m Hs Hm). destruct (is_set C) eqn:EC; [rewrite E1 by (left; now apply set_iff); now apply K_pos|].
        destruct (is_set L) eqn:EL; [rewrite E1 by (right; now apply set_iff); now apply K_pos|]. rewrite E2; [lia|..]; rewrite <- set_iff; congruence. }
      apply lr_metric; try assumption; [now apply (start_covers N f)|..].
      + intros HC. rewrite (E3 HC). destruct (Z.ltb_spec 0 (sumZ (map d (seq 0 N)))) as [G|G]; [left; eauto|right].
        intros n Hn. apply (sum_zero_each d (seq 0 N)); [intros; apply P6|exact G|apply in_seq; lia].
      + intros HLs. rewrite (E5 HLs). eexists. split; [reflexivity|]. destruct (Ha HLs) as (j & Hj & Hpos).
        assert (0 < sumZ (map near (seq 0 N))); [|lia]. apply (sum_pos_in near _ j); [exact Hnn|apply in_seq; lia|].
        destruct (Hnear j Hj) as [(i & Hi & Hij & <-) _]. now apply Hpos.
    - pose proof (largest_pos N D m Hs Hm). destruct (alone_within _ _ _ _ _ _ _ P4 P6 (seq_ne N P1) (alone_all _ _ _ _ _ _ _ P8)) as (W1 & W2).
      destruct (lr_terminates eps eps N D d C L K lC lL inf true None [tour; []]) as (fuel0 & r & Hr); try assumption; [rewrite (E1 (or_introl HC)); now apply K_pos|now apply (start_covers N f)|..].
      + right. rewrite (E3 HC). eexists. exists M. split; [reflexivity|]. split; [|exact HM]. apply (sum_pos_in d _ n); [intros; apply P6|apply in_seq; lia|exact Hd].
      + destruct (lr_result eps eps N D d C L K lC lL inf true None [tour; []] fuel0 None (LrReturn r) P1 P2 P3 P4 P6 P8 (start_covers N f tour Ht) (Hr fuel0 (le_n _))) as (rs & Hsv & [Ee|Ee]); [|discriminate].
        injection Ee as ->. exists fuel0, rs. split; [exact Hsv|]. exact Hr. }
  destruct HE as (fuel0 & rs & Hsv & Hr). exists rs. split; [exact Hsv|]. exists fuel0. intros fuel Hf0. unfold lr3opt_default. rewrite E, (start_is N f tour Ht). now apply Hr.
Qed.

(** ** Twins: the multiplier is zero and stays zero *)
Lemma path_pos D l : nonneg_matrix D -> 0 < path_cost D l -> exists i j, In i l /\ In j l /\ 0 < D i j.
Proof.
  intros DN. induction l as [|x [|y l] IH]; [cbn; lia|cbn; lia|]. rewrite path_cost_cons2. intros H. destruct (Z.ltb_spec 0 (D x y)) as [G|G].
  - exists x, y. split; [now left|]. split; [right; now left|exact G].
  - destruct IH as (i & j & Hi & Hj & Hp); [lia|]. exists i, j. split; [now right|]. split; [now right|exact Hp].
Qed.
Lemma twins_forever eps N D d C L inf f tour : (2 <= N)%nat -> 0 <= eps -> symmetric D -> nonneg_matrix D -> D 0%nat 0%nat = 0 -> (forall n, 0 <= d n) ->
  solver N D f -> ~ limit_set C -> within L eps 0 -> twins N D ->
  fst (f (seq 0 N)) = 0%nat :: tour ++ [0%nat] -> (forall rs, covers N rs -> route_cost D tour <= routes_cost D rs) -> ~ within L eps (route_cost D tour) ->
  forall fuel, lr3opt_default eps eps N D d C L inf f fuel None = None.
Proof.
  intros HN He HD DN D0 dN Hf HC HL0 Htw Etour Hopt Hlong.
  destruct (solver_tour N D f HN Hf) as (tour' & Ht). assert (tour' = tour) as ->.
  { destruct Ht as [E _]. rewrite Etour in E. injection E as E. now apply app_inj_tail in E. }
  destruct (default_spec N D d C L f HN Hf) as (m & near & Hm & Hnear & K & lC & lL & E & E1 & E2 & E3 & E4 & E5 & E6).
  assert (HLs : limit_set L) by (unfold within, limit_set in *; destruct L; [intros ->; now apply Hlong|tauto]).
  assert (HK : 0 < K).
  { rewrite E1 by now right. assert (0 < m); [|now apply K_pos].
    assert (Hp : 0 < route_cost D tour).
    { destruct L as [l|]; [|easy]. unfold within in HL0, Hlong. destruct (Z.ltb_spec 0 (route_cost D tour)); [assumption|]. exfalso. apply Hlong. intros G. specialize (HL0 G). lia. }
    destruct (path_pos D _ DN Hp) as (i & j & Hi & Hj & Hij). destruct Hm as [_ Hm].
    assert (Hin : forall x, In x (0%nat :: tour ++ [0%nat]) -> (x < N)%nat).
    { intros x Hx. apply (start_nodes N f tour HN Ht). unfold encode. cbn [flat_map app]. destruct Hx as [Hx|Hx]; [now left|right]. apply in_or_app. now left. }
    specialize (Hm i j (Hin i Hi) (Hin j Hj)). lia. }
  assert (E0 : lL = Some 0).
  { rewrite (E5 HLs). f_equal. assert (G : forall l, incl l (seq 0 N) -> sumZ (map near l) = 0); [|now rewrite (G _ (incl_refl _))].
    induction l as [|j l IH]; intros Hl; [reflexivity|]. cbn [map]. rewrite sumZ_cons, IH by (intros x Hx; apply Hl; now right).
    assert (Hj : (j < N)%nat) by (specialize (Hl j (or_introl eq_refl)); apply in_seq in Hl; lia).
    destruct (Htw j Hj) as (i & Hi & Hij & Ez). destruct (Hnear j Hj) as [(i' & _ & _ & Ei') Hmin]. specialize (Hmin i Hi Hij). pose proof (DN i' j). lia. }
  rewrite (E4 HC) in E. rewrite E0 in E. clear E1 E2 E3 E4 E5 E6 E0 lC lL.
  assert (HC0 : within C eps 0) by (unfold within, limit_set in *; destruct C as [c|]; [intros G; now destruct HC|exact I]).
  assert (Hc : Forall customers_only [tour; []]) by now apply (covers_only N), (start_covers N f).
  assert (Hstep : forall incs, lr_step eps eps D d C L K inf true None (mklr (encode [tour; []]) None (Some 0) incs false) = inl (mklr (encode [tour; []]) None (Some 0) (S incs) false)).
  { intros incs. unfold lr_step. cbn [lr_post lr_sol lr_lC lr_lL lr_incs].
    replace (ends_with_empty (encode [tour; []])) with true by (symmetry; change [tour; []] with ([tour] ++ [[]]); rewrite encode_snoc; apply flag_snoc; apply encode_last). cbn [negb].
    cbn [lam_or_zero].
    destruct (do_3optstar_with _ (encode [tour; []]) D d true None) as [[new dl]|] eqn:Em.
    - exfalso. destruct (move_lowers eps eps D d C L K He He HD DN D0 dN (conj HC0 HL0) 0 0 HK ltac:(lia) ltac:(lia) _ new dl Hc Em) as (rs' & -> & W & P & Hlt).
      unfold relaxed in Hlt. assert (Hcov : covers N rs') by (unfold covers; rewrite P; exact (start_covers N f tour Ht)). specialize (Hopt rs' Hcov).
      assert (Er : routes_cost D [tour; []] = route_cost D tour) by (unfold routes_cost; cbn [map]; rewrite !sumZ_cons; change (sumZ []) with 0; unfold route_cost at 2; cbn; lia).
      rewrite Er in Hlt. nia.
    - destruct (check_CL_constraints eps eps (encode [tour; []]) D d C L) eqn:Ech.
      + apply (check_encode eps eps D d C L DN dN _ Hc HC0) in Ech. inversion Ech as [|? ? [_ G] _]. contradiction.
      + reflexivity. }
  intros fuel. unfold lr3opt_default. rewrite (start_is N f tour Ht) in *. rewrite E. cbn [lr3opt_init].
  generalize 0%nat as incs. induction fuel as [|fuel IH]; intros incs; [reflexivity|]. cbn [lr_loop option_map]. rewrite Hstep. apply IH.
Qed.

(** ** A lower bound on a line *)
Lemma path_add D D1 D2 l : (forall i j, D i j = D1 i j + D2 i j) -> path_cost D l = path_cost D1 l + path_cost D2 l.
Proof. intros H. induction l as [|x [|y l] IH]; [reflexivity|reflexivity|]. rewrite !path_cost_cons2, H, IH. lia. Qed.
Lemma routes_add D D1 D2 rs : (forall i j, D i j = D1 i j + D2 i j) -> routes_cost D rs = routes_cost D1 rs + routes_cost D2 rs.
Proof.
  intros H. unfold routes_cost. induction rs as [|r rs IH]; [reflexivity|]. cbn [map]. rewrite !sumZ_cons, IH. unfold route_cost. rewrite (path_add D D1 D2) by exact H. lia.
Qed.
Lemma there_and_back D N rs n : symmetric D -> triangle D -> nonneg_matrix D -> covers N rs -> (1 <= n < N)%nat -> 2 * D 0%nat n <= routes_cost D rs.
Proof.
  intros HD HT DN Hc Hn. assert (Hin : In n (concat rs)) by (apply (Permutation_in _ (Permutation_sym Hc)), in_seq; lia).
  apply in_concat in Hin. destruct Hin as (r & Hr & Hnr). transitivity (route_cost D r).
  - apply in_split in Hnr. destruct Hnr as (l1 & l2 & ->). unfold route_cost, wrap. rewrite <- app_assoc. cbn [app]. rewrite app_comm_cons, path_split.
    pose proof (path_far D HT l1 0%nat n) as H1. pose proof (path_far D HT l2 n 0%nat) as H2. rewrite (HD n 0%nat) in H2. cbn [app] in *. lia.
  - unfold routes_cost. apply (in_sum_le (route_cost D)); [intros; apply P_3optstar5.path_nn, DN|exact Hr].
Qed.
