(** * Route-first-cluster-second: results, solvers *)
From Verif Require Import Spec Spec_ls Spec_inter Spec_savings Spec_rfcs PyBase M_util M_intra M_psavings M_rfcs P_base P_intra2 P_nn2 P_rfcs P_rfcs2.
Require Import ZifyBool ZifyNat Lia.

Lemma forall2_perm_concat (rs ss : list (list nat)) : Forall2 (@Permutation nat) rs ss -> Permutation (concat rs) (concat ss).
Proof. induction 1 as [|r s rs ss H _ IH]; [constructor|]. cbn. now apply Permutation_app. Qed.
Lemma forall2_length {A B} (R : A -> B -> Prop) l l' : Forall2 R l l' -> length l = length l'.
Proof. induction 1; cbn; congruence. Qed.
Lemma rotation_permutation tour l : rotation tour l -> Permutation l tour.
Proof. intros (x & y & -> & ->). apply Permutation_app_comm. Qed.

Section Results.
Variable N : nat.
Variable D : matrix.
Variable d : demands.
Variables C L : limit.
Variables ceps seps : Z.
Variable minimize_K : bool.
Variable gen f g : tsp.
Variable tour gt : list nat.
Variable glen : Z.
Hypothesis HN : (3 <= N)%nat.
Hypothesis Hgen : gen (range 1 N) = (gt, glen).
Hypothesis Hgt : giant_tour N tour gt.
Hypothesis Hlen : 0 <= glen.
Hypothesis Hgrow : grows f tour.

Lemma init_partition stop fuel : rfcs_init ceps seps N d C L minimize_K gen f g stop fuel = rf_partition ceps seps N d C L gt (if minimize_K then glen else 0) f g stop fuel.
Proof. unfold rfcs_init. replace (N <=? 2)%nat with false by lia. now rewrite Hgen. Qed.
Lemma const_nonneg : 0 <= (if minimize_K then glen else 0).
Proof. destruct minimize_K; lia. Qed.

Lemma rfcs_result : solver N D f -> improver N D g -> served_alone N D d C L ceps seps -> forall fuel, (N <= fuel)%nat ->
  exists ss rs, rfcs_init ceps seps N d C L minimize_K gen f g None fuel = Some (RfReturns (encode rs)) /\
    serves N D d C L ceps seps rs /\ rotation tour (concat ss) /\ (2 <= length rs)%nat /\ Forall2 (@Permutation nat) rs ss.
Proof.
  intros Hf Hg Ha fuel Hfuel.
  destruct (partition_spec N D d C L ceps seps _ f g tour gt HN Hgt Hf Hg Hgrow Ha const_nonneg fuel ltac:(unfold n; lia)) as (ss & rs & E & (P1 & P2 & P3 & P4) & H1 & H2 & _).
  exists ss, rs. rewrite init_partition. unfold rf_partition. rewrite E. split; [reflexivity|]. split; [|split; [exact P1|split; [rewrite (forall2_length _ _ _ H1); exact P2|exact H1]]].
  split; [|split].
  - unfold covers. rewrite (forall2_perm_concat _ _ H1), (rotation_permutation _ _ P1). apply Hgt.
  - clear - H1 P3. induction H1 as [|r s rs ss H _ IH]; [constructor|]. inversion P3; subst. constructor; [|auto]. intros ->. now apply Permutation_nil in H.
  - clear - H1 H2 P3 P4. revert H2 P3 P4. induction H1 as [|r s rs ss H _ IH]; intros H2 P3 P4; [constructor|]. inversion H2; subst. inversion P3; subst. inversion P4 as [|? ? Q]; subst. constructor; [|auto].
    destruct (Q s []) as [Q1 Q2]; [now rewrite app_nil_r|assumption|]. split; [now rewrite (demand_perm d _ _ H)|].
    unfold within in *. destruct L as [c|]; [|exact I]. intros Hc. specialize (Q2 Hc). lia.
Qed.
Lemma rfcs_best : solver N D f -> improver N D g -> served_alone N D d C L ceps seps -> forall fuel, (N <= fuel)%nat ->
  exists rs, rfcs_init ceps seps N d C L minimize_K gen f g None fuel = Some (RfReturns (encode rs)) /\
    forall ss', partition d C L ceps seps f tour ss' ->
      routes_cost D rs + (if minimize_K then glen else 0) * Z.of_nat (length rs) <= sum_costs f ss' + (if minimize_K then glen else 0) * Z.of_nat (length ss').
Proof.
  intros Hf Hg Ha fuel Hfuel.
  destruct (partition_spec N D d C L ceps seps _ f g tour gt HN Hgt Hf Hg Hgrow Ha const_nonneg fuel ltac:(unfold n; lia)) as (ss & rs & E & _ & H1 & H2 & H3).
  exists rs. rewrite init_partition. unfold rf_partition. rewrite E. split; [reflexivity|]. intros ss' Hp. specialize (H3 ss' Hp). rewrite (forall2_length _ _ _ H1).
  assert (routes_cost D rs <= sum_costs f ss); [|lia]. clear - H2. unfold routes_cost, sum_costs, sumZ. induction H2 as [|r s rs ss H _ IH]; [reflexivity|]. cbn [map fold_right]. lia.
Qed.
Lemma rfcs_interrupted : forall s fuel, (N <= fuel)%nat ->
  exists rs, rfcs_init ceps seps N d C L minimize_K gen f g (Some (AfterEntries s)) fuel = Some (RfInterrupted (encode rs)) /\
    rotation tour (concat rs) /\ covers N rs /\ Forall (fun r => r <> []) rs /\ (length rs = 1%nat \/ Forall (fun r => within C ceps (demand d r)) rs).
Proof.
  intros s fuel Hfuel.
  destruct (interrupted_spec N d C L ceps seps _ f g tour gt HN Hgt Hgrow const_nonneg s fuel ltac:(unfold n; lia)) as (ss & E & H1 & H2 & H3).
  exists ss. rewrite init_partition. unfold rf_partition. rewrite E. split; [reflexivity|]. split; [exact H1|]. split; [unfold covers; rewrite (rotation_permutation _ _ H1); apply Hgt|]. split; [exact H2|].
  destruct H3 as [H3|H3]; [now left|]. right. clear - H2 H3. induction H3 as [|s ss H _ IH]; [constructor|]. inversion H2; subst. constructor; [|auto]. apply (H s []); [now rewrite app_nil_r|assumption].
Qed.
Lemma rfcs_name_error fuel : (N <= fuel)%nat -> rfcs_init ceps seps N d C L minimize_K gen f g (Some BeforeCost) fuel = Some RfNameError.
Proof.
  intros Hfuel.
  destruct (interrupted_spec N d C L ceps seps _ f g tour gt HN Hgt Hgrow const_nonneg 0 fuel ltac:(unfold n; lia)) as (ss & E & _).
  rewrite init_partition. unfold rf_partition. rewrite E. reflexivity.
Qed.
End Results.

(** ** The built-in solvers *)
Fixpoint words (N k : nat) : list (list nat) :=
  match k with O => [[]] | S k' => [] :: flat_map (fun w => map (fun x => x :: w) (seq 0 N)) (words N k') end.
Lemma words_in N k : forall w, (length w <= k)%nat -> (forall x, In x w -> (x < N)%nat) -> In w (words N k).
Proof.
  induction k as [|k IH]; intros [|x w] Hl Hx; cbn [length] in Hl; [now left|lia|now left|]. cbn [words]. right. apply in_flat_map. exists w. split; [apply IH; [lia|intros y Hy; apply Hx; now right]|].
  apply in_map_iff. exists x. split; [reflexivity|]. apply in_seq. assert (H := Hx x ltac:(now left)). lia.
Qed.
Lemma uniform {A} (P : nat -> A -> Prop) (l : list A) : (forall x, In x l -> exists k0, forall k, (k0 <= k)%nat -> P k x) -> exists k0, forall k, (k0 <= k)%nat -> forall x, In x l -> P k x.
Proof.
  induction l as [|a l IH]; intros H; [exists 0%nat; intros k _ x []|]. destruct (H a ltac:(now left)) as [k1 H1]. destruct IH as [k2 H2]; [intros x Hx; apply H; now right|].
  exists (max k1 k2). intros k Hk x [<-|Hx]; [apply H1; lia|apply H2; [lia|exact Hx]].
Qed.
Lemma nodup_bounded N l : NoDup l -> (forall j, In j l -> (1 <= j < N)%nat) -> (length l <= N)%nat.
Proof. intros H1 H2. rewrite <- (seq_length N 0). apply NoDup_incl_length; [exact H1|]. intros j Hj. apply in_seq. specialize (H2 j Hj). lia. Qed.

Lemma closed_shape (l r : list nat) : l <> [] -> same_tour_nodes (0%nat :: l ++ [0%nat]) r -> exists l', r = 0%nat :: l' ++ [0%nat] /\ Permutation l' l.
Proof.
  intros Hne (Hp & Hh & Hl). destruct r as [|x r]; [apply Permutation_length in Hp; discriminate|]. cbn [hd] in Hh. subst x.
  rewrite app_comm_cons, last_last in Hl. destruct r as [|y r] using rev_ind; [apply Permutation_length in Hp; cbn in Hp; rewrite app_length in Hp; cbn in Hp; lia|]. clear IHr.
  rewrite app_comm_cons, last_last in Hl. subst y. exists r. split; [reflexivity|]. apply Permutation_cons_inv in Hp. apply Permutation_app_inv_r in Hp. now symmetry.
Qed.

Lemma ropt_solver eps D N do2 do3 : 0 <= eps -> symmetric D -> exists fuel0, forall fuel, (fuel0 <= fuel)%nat ->
  solver N D (as_tsp (fun l => solve_tsp_ropt eps fuel D l None do2 do3)) /\ improver N D (as_tsp (fun l => solve_tsp_ropt eps fuel D l None do2 do3)).
Proof.
  intros Heps Hs.
  destruct (uniform (fun fuel l => l <> [] -> (forall j, In j l -> (1 <= j < N)%nat) ->
     (exists l', as_tsp (fun l => solve_tsp_ropt eps fuel D l None do2 do3) (0%nat :: l) = (0%nat :: l' ++ [0%nat], route_cost D l') /\ Permutation l' l) /\
     (exists l', as_tsp (fun l => solve_tsp_ropt eps fuel D l None do2 do3) (0%nat :: l ++ [0%nat]) = (0%nat :: l' ++ [0%nat], route_cost D l') /\ Permutation l' l /\ route_cost D l' <= route_cost D l)) (words N N)) as [k0 H0].
  { intros l _. destruct l as [|x l]; [exists 0%nat; intros k _ Hne; contradiction|].
    destruct (solve_tsp_spec eps D (0%nat :: x :: l) None do2 do3 Heps Hs ltac:(discriminate)) as [k1 H1].
    destruct (solve_tsp_spec eps D (0%nat :: (x :: l) ++ [0%nat]) None do2 do3 Heps Hs ltac:(discriminate)) as [k2 H2].
    exists (max k1 k2). intros k Hk _ Hin. destruct (H1 k ltac:(lia)) as (r1 & E1 & S1 & _ & _). destruct (H2 k ltac:(lia)) as (r2 & E2 & S2 & C2 & _).
    assert (I1 : initial_tour (0%nat :: x :: l) None = 0%nat :: (x :: l) ++ [0%nat]).
    { unfold initial_tour. assert (Hl : last (0%nat :: x :: l) 0%nat <> 0%nat).
      { change (last (0%nat :: x :: l) 0%nat) with (last (x :: l) 0%nat). destruct (exists_last (l := x :: l) ltac:(discriminate)) as (l0 & y & E). rewrite E, last_last. assert (Hy := Hin y). rewrite E in Hy. specialize (Hy ltac:(apply in_or_app; right; now left)). lia. }
      cbn [hd]. destruct (Nat.eqb_spec (last (0%nat :: x :: l) 0%nat) 0); [contradiction|]. reflexivity. }
    assert (I2 : initial_tour (0%nat :: (x :: l) ++ [0%nat]) None = 0%nat :: (x :: l) ++ [0%nat]).
    { unfold initial_tour. rewrite (app_comm_cons (x :: l)), last_last. cbn. reflexivity. }
    rewrite I1 in S1. rewrite I2 in S2, C2. apply closed_shape in S1 as (l1 & -> & P1); [|discriminate]. apply closed_shape in S2 as (l2 & -> & P2); [|discriminate].
    unfold as_tsp. rewrite E1, E2. split; [exists l1; split; [reflexivity|exact P1]|]. exists l2. split; [reflexivity|]. split; [exact P2|]. exact C2. }
  exists k0. intros fuel Hfuel. split; intros l Hne Hnd Hin; (destruct (H0 fuel Hfuel l) as [G1 G2]; [apply words_in; [now apply nodup_bounded|intros y Hy; specialize (Hin y Hy); lia]|exact Hne|exact Hin|assumption]).
Qed.

(** ** Routes that grow *)
Lemma inorder_solver N D : solver N D (inorder D).
Proof. intros l _ _ _. exists l. split; [reflexivity|reflexivity]. Qed.
Lemma inorder_grown D s : s <> [] -> grown (inorder D) s = (0%nat :: s ++ [0%nat], route_cost D s).
Proof.
  induction s as [|x s IH] using rev_ind; [contradiction|]. intros _. unfold grown. rewrite fold_left_app. cbn [fold_left]. fold (grown (inorder D) s).
  assert (E : removelast (fst (grown (inorder D) s)) = 0%nat :: s).
  { destruct s as [|y s]; [reflexivity|]. rewrite IH by discriminate. cbn [fst]. rewrite app_comm_cons. apply removelast_last. }
  rewrite E. reflexivity.
Qed.
Lemma metric_nonneg D : symmetric D -> triangle D -> forall i j, 0 <= D i j.
Proof. intros Hs Ht i j. assert (H1 := Ht i i i). assert (H2 := Ht i j i). rewrite (Hs j i) in H2. lia. Qed.
Lemma inorder_grows D tour : symmetric D -> triangle D -> grows (inorder D) tour.
Proof.
  intros Hs Ht s s' t _ Hne. assert (Hnn := metric_nonneg D Hs Ht). unfold grown_cost. rewrite !inorder_grown by (destruct s; [contradiction|discriminate]). cbn [snd]. split.
  - unfold route_cost. generalize (0%nat :: s ++ [0%nat]). intros l. induction l as [|a [|b l] IH]; [cbn; lia|cbn; lia|]. rewrite path_cost_cons2. specialize (Hnn a b). lia.
  - clear t. induction s' as [|x s' IH] using rev_ind; [rewrite app_nil_r; lia|]. eapply Z.le_trans; [exact IH|]. rewrite app_assoc. generalize (s ++ s') as q. intros q. unfold route_cost.
    destruct q as [|y q] using rev_ind; [cbn; assert (H := Ht 0%nat x 0%nat); lia|]. clear IHq.
    assert (E1 : path_cost D (0%nat :: (q ++ [y]) ++ [0%nat]) = path_cost D ((0%nat :: q) ++ [y]) + D y 0%nat) by (rewrite <- path_cost_snoc2; f_equal; cbn; now rewrite <- app_assoc).
    assert (E2 : path_cost D (0%nat :: ((q ++ [y]) ++ [x]) ++ [0%nat]) = path_cost D ((0%nat :: q) ++ [y]) + D y x + D x 0%nat).
    { rewrite <- path_cost_snoc2. change ((0%nat :: q) ++ [y; x]) with ((0%nat :: q) ++ [y] ++ [x]). rewrite app_assoc, <- path_cost_snoc2. f_equal. cbn. now rewrite <- !app_assoc. }
    rewrite E1, E2. assert (H := Ht y x 0%nat). lia.
Qed.

(** An exact solver *)
Lemma filter_cost D (keep : nat -> bool) : triangle D -> (forall i j, 0 <= D i j) -> forall l x y, path_cost D (x :: filter keep l ++ [y]) <= path_cost D (x :: l ++ [y]).
Proof.
  intros Ht Hnn l. induction l as [|z l IH]; intros x y; [reflexivity|]. cbn [filter app]. rewrite (path_cost_cons2 D x z). destruct (keep z).
  - cbn [app]. rewrite path_cost_cons2. specialize (IH z y). lia.
  - specialize (IH z y). assert (H : path_cost D (x :: filter keep l ++ [y]) <= D x z + path_cost D (z :: filter keep l ++ [y])).
    { destruct (filter keep l ++ [y]) as [|w q] eqn:E; [now destruct (filter keep l)|]. rewrite !path_cost_cons2. specialize (Ht x z w). lia. }
    lia.
Qed.
Lemma exact_grown N D f s p : solver N D f -> exact_solver N D f -> s <> [] -> NoDup s -> (forall j, In j s -> (1 <= j < N)%nat) -> Permutation p s -> grown_cost f s <= route_cost D p.
Proof.
  intros Hf He Hne Hnds Hins Hp. destruct s as [|x s] using rev_ind; [contradiction|]. clear IHs. unfold grown_cost. rewrite grown_snoc.
  assert (Eq : exists q, removelast (fst (grown f s)) ++ [x] = 0%nat :: q /\ Permutation q (s ++ [x])).
  { destruct s as [|y s]; [exists [x]; split; reflexivity|].
    destruct (grown_shape N D f Hf (y :: s) ltac:(discriminate)) as (l0 & E0 & P0).
    { clear - Hnds. induction (y :: s) as [|z q IH]; [constructor|]. cbn in Hnds. inversion Hnds; subst. constructor; [intros Hx; apply H1, in_or_app; now left|auto]. }
    { intros j Hj. apply Hins, in_or_app. now left. }
    rewrite E0. cbn [fst]. rewrite app_comm_cons, removelast_last. exists (l0 ++ [x]). split; [reflexivity|]. now apply Permutation_app_tail. }
  destruct Eq as (q & Eq & Pq). rewrite Eq. apply He.
  - intros ->. apply Permutation_nil in Pq. now destruct s.
  - eapply Permutation_NoDup; [symmetry; exact Pq|exact Hnds].
  - intros j Hj. apply Hins. eapply Permutation_in; [exact Pq|exact Hj].
  - rewrite Hp. now symmetry.
Qed.
Lemma nodup_left {A} (a b : list A) : NoDup (a ++ b) -> NoDup a.
Proof. intros H. induction a as [|x a IH]; [constructor|]. cbn in H. inversion H; subst. constructor; [intros Hx; apply H2, in_or_app; now left|auto]. Qed.
(** The customers of a prefix in the order of a route of all *)
Lemma exact_sub N D f a b r : symmetric D -> triangle D -> solver N D f -> exact_solver N D f -> a <> [] -> NoDup (a ++ b) -> (forall j, In j (a ++ b) -> (1 <= j < N)%nat) ->
  Permutation r (a ++ b) -> grown_cost f a <= route_cost D r.
Proof.
  intros Hs Ht Hf He Hne Hnd Hin P. assert (Hnn := metric_nonneg D Hs Ht). set (keep := fun x => existsb (Nat.eqb x) a). assert (Hnda := nodup_left _ _ Hnd).
  assert (Hk : Permutation (filter keep r) a).
  { apply NoDup_Permutation; [apply NoDup_filter; eapply Permutation_NoDup; [symmetry; exact P|exact Hnd]|exact Hnda|]. intros x. rewrite filter_In. unfold keep. rewrite existsb_exists. split.
    - intros [_ (y & Hy & E)]. apply Nat.eqb_eq in E. now subst.
    - intros Hx. split; [eapply Permutation_in; [symmetry; exact P|apply in_or_app; now left]|]. exists x. split; [exact Hx|apply Nat.eqb_refl]. }
  eapply Z.le_trans; [|apply (filter_cost D keep Ht Hnn r 0%nat 0%nat)]. fold (route_cost D (filter keep r)).
  eapply exact_grown; eauto. intros j Hj. apply Hin, in_or_app. now left.
Qed.
Lemma exact_grows N D f tour : symmetric D -> triangle D -> solver N D f -> exact_solver N D f -> Permutation tour (seq 1 (N - 1)) -> grows f tour.
Proof.
  intros Hs Ht Hf He Hp s s' t Hr Hne. assert (Hnn := metric_nonneg D Hs Ht).
  assert (Hall : Permutation (s ++ s' ++ t) (seq 1 (N - 1))) by (rewrite (rotation_permutation _ _ Hr); exact Hp).
  assert (Hnd : NoDup ((s ++ s') ++ t)) by (rewrite <- app_assoc; eapply Permutation_NoDup; [symmetry; exact Hall|apply seq_NoDup]).
  assert (Hin : forall j, In j (s ++ s') -> (1 <= j < N)%nat).
  { intros j Hj. assert (H : In j (seq 1 (N - 1))) by (eapply Permutation_in; [exact Hall|]; rewrite app_assoc; apply in_or_app; now left). apply in_seq in H. lia. }
  apply nodup_left in Hnd.
  destruct (grown_shape N D f Hf s Hne (nodup_left _ _ Hnd)) as (l1 & E1 & P1); [intros j Hj; apply Hin, in_or_app; now left|].
  destruct (grown_shape N D f Hf (s ++ s') ltac:(destruct s; [contradiction|discriminate]) Hnd Hin) as (l2 & E2 & P2).
  split.
  - unfold grown_cost. rewrite E1. cbn [snd]. unfold route_cost. generalize (0%nat :: l1 ++ [0%nat]). intros l. induction l as [|a [|b l] IH]; [cbn; lia|cbn; lia|]. rewrite path_cost_cons2. specialize (Hnn a b). lia.
  - unfold grown_cost at 2. rewrite E2. cbn [snd]. eapply exact_sub; eauto.
Qed.

Lemma rfcs_built_in eps ceps seps N D d C L minimize_K gen tour gt glen : 0 <= eps -> symmetric D -> (3 <= N)%nat ->
  gen (range 1 N) = (gt, glen) -> giant_tour N tour gt -> 0 <= glen -> served_alone N D d C L ceps seps ->
  exists fuel0, forall fuel, (fuel0 <= fuel)%nat -> grows (as_tsp (solve_tsp_2opt eps fuel D)) tour ->
  exists ss rs, rfcs_init ceps seps N d C L minimize_K gen (as_tsp (solve_tsp_2opt eps fuel D)) (as_tsp (solve_tsp_3opt eps fuel D)) None fuel = Some (RfReturns (encode rs)) /\
    serves N D d C L ceps seps rs /\ rotation tour (concat ss) /\ (2 <= length rs)%nat /\ Forall2 (@Permutation nat) rs ss.
Proof.
  intros Heps Hs HN Hgen Hgt Hlen Ha. destruct (ropt_solver eps D N true false Heps Hs) as [k1 H1]. destruct (ropt_solver eps D N false true Heps Hs) as [k2 H2].
  exists (max N (max k1 k2)). intros fuel Hfuel Hg. destruct (H1 fuel ltac:(lia)) as [S1 _]. destruct (H2 fuel ltac:(lia)) as [_ S2].
  eapply rfcs_result; eauto. lia.
Qed.
Lemma rfcs_inorder ceps seps N D d C L minimize_K gen g tour gt glen : symmetric D -> triangle D -> (3 <= N)%nat ->
  gen (range 1 N) = (gt, glen) -> giant_tour N tour gt -> 0 <= glen -> improver N D g -> served_alone N D d C L ceps seps ->
  forall fuel, (N <= fuel)%nat ->
  exists ss rs, rfcs_init ceps seps N d C L minimize_K gen (inorder D) g None fuel = Some (RfReturns (encode rs)) /\
    serves N D d C L ceps seps rs /\ rotation tour (concat ss) /\ (2 <= length rs)%nat /\ Forall2 (@Permutation nat) rs ss.
Proof. intros. eapply rfcs_result; eauto; [now apply inorder_grows|apply inorder_solver]. Qed.
Lemma rfcs_exact ceps seps N D d C L minimize_K gen f g tour gt glen : symmetric D -> triangle D -> (3 <= N)%nat ->
  gen (range 1 N) = (gt, glen) -> giant_tour N tour gt -> 0 <= glen -> solver N D f -> exact_solver N D f -> improver N D g -> served_alone N D d C L ceps seps ->
  forall fuel, (N <= fuel)%nat ->
  exists ss rs, rfcs_init ceps seps N d C L minimize_K gen f g None fuel = Some (RfReturns (encode rs)) /\
    serves N D d C L ceps seps rs /\ rotation tour (concat ss) /\ (2 <= length rs)%nat /\ Forall2 (@Permutation nat) rs ss.
Proof. intros. eapply rfcs_result; eauto. eapply exact_grows; eauto. apply H3. Qed.
Lemma partition_cost_inorder D ss : Forall (fun s => s <> []) ss -> sum_costs (inorder D) ss = routes_cost D ss.
Proof. intros H. unfold sum_costs, routes_cost, sumZ. induction H as [|s ss Hs _ IH]; [reflexivity|]. cbn [map fold_right]. rewrite IH. unfold grown_cost. now rewrite inorder_grown. Qed.
Lemma inorder_prefix D s a b : symmetric D -> triangle D -> s = a ++ b -> a <> [] -> route_cost D a <= route_cost D s.
Proof.
  intros Hs Ht -> Ha. assert (H := inorder_grows D (a ++ b ++ []) Hs Ht a b [] ). unfold grown_cost in H. assert (Hab : a ++ b <> []) by (destruct a; [contradiction|discriminate]). rewrite !inorder_grown in H by assumption. cbn [snd] in H.
  apply H; [|exact Ha]. exists [], (a ++ b ++ []). rewrite !app_nil_r. auto.
Qed.
Lemma demand_prefix d (a b : list nat) : (forall j, 0 <= d j) -> demand d a <= demand d (a ++ b).
Proof. intros Hd. rewrite demand_app. assert (0 <= demand d b); [|lia]. unfold demand, sumZ. induction b as [|x b IH]; [reflexivity|]. cbn [map fold_right]. specialize (Hd x). lia. Qed.
Lemma within_le lim eps x y : x <= y -> within lim eps y -> within lim eps x.
Proof. unfold within. destruct lim; [|auto]. intros H1 H2 Hz. specialize (H2 Hz). lia. Qed.
Lemma rfcs_inorder_best ceps seps N D d C L minimize_K gen g tour gt glen : symmetric D -> triangle D -> (forall j, 0 <= d j) -> (3 <= N)%nat ->
  gen (range 1 N) = (gt, glen) -> giant_tour N tour gt -> 0 <= glen -> improver N D g -> served_alone N D d C L ceps seps ->
  forall fuel, (N <= fuel)%nat ->
  exists rs, rfcs_init ceps seps N d C L minimize_K gen (inorder D) g None fuel = Some (RfReturns (encode rs)) /\
    forall ss, rotation tour (concat ss) -> (2 <= length ss)%nat -> Forall (fun s => s <> []) ss -> Forall (feasible D d C L ceps seps) ss ->
      routes_cost D rs + (if minimize_K then glen else 0) * Z.of_nat (length rs) <= routes_cost D ss + (if minimize_K then glen else 0) * Z.of_nat (length ss).
Proof.
  intros Hs Ht Hd HN Hgen Hgt Hlen Hg Ha fuel Hfuel.
  destruct (rfcs_best N D d C L ceps seps minimize_K gen (inorder D) g tour gt glen HN Hgen Hgt Hlen (inorder_grows D tour Hs Ht) (inorder_solver N D) Hg Ha fuel Hfuel) as (rs & E & H).
  exists rs. split; [exact E|]. intros ss Hr H2 Hne Hf. rewrite <- (partition_cost_inorder D ss Hne). apply H. split; [exact Hr|]. split; [exact H2|]. split; [exact Hne|].
  clear - Hs Ht Hd Hne Hf. induction Hf as [|s ss [F1 F2] _ IH]; [constructor|]. inversion Hne; subst. constructor; [|auto]. intros a b -> Hane. split.
  - eapply within_le; [apply demand_prefix, Hd|exact F1].
  - eapply within_le; [|exact F2]. unfold grown_cost. rewrite inorder_grown by exact Hane. cbn [snd]. eapply inorder_prefix; eauto.
Qed.
Lemma rfcs_exact_best ceps seps N D d C L minimize_K gen f g tour gt glen : symmetric D -> triangle D -> (forall j, 0 <= d j) -> (3 <= N)%nat ->
  gen (range 1 N) = (gt, glen) -> giant_tour N tour gt -> 0 <= glen -> solver N D f -> exact_solver N D f -> improver N D g -> served_alone N D d C L ceps seps ->
  forall fuel, (N <= fuel)%nat ->
  exists rs, rfcs_init ceps seps N d C L minimize_K gen f g None fuel = Some (RfReturns (encode rs)) /\
    forall ss rs', rotation tour (concat ss) -> Forall2 (@Permutation nat) rs' ss -> (2 <= length rs')%nat -> Forall (fun r => r <> []) rs' -> Forall (feasible D d C L ceps seps) rs' ->
      routes_cost D rs + (if minimize_K then glen else 0) * Z.of_nat (length rs) <= routes_cost D rs' + (if minimize_K then glen else 0) * Z.of_nat (length rs').
Proof.
  intros Hs Ht Hd HN Hgen Hgt Hlen Hf He Hg Ha fuel Hfuel.
  assert (Hgrow : grows f tour) by (eapply exact_grows; eauto; apply Hgt).
  destruct (rfcs_best N D d C L ceps seps minimize_K gen f g tour gt glen HN Hgen Hgt Hlen Hgrow Hf Hg Ha fuel Hfuel) as (rs & E & H).
  exists rs. split; [exact E|]. intros ss rs' Hr HF H2 Hne Hfe. rewrite (forall2_length _ _ _ HF) in *.
  assert (Hp : Permutation (concat ss) (seq 1 (N - 1))) by (rewrite (rotation_permutation _ _ Hr); apply Hgt).
  assert (Hcust : Forall (fun s => NoDup s /\ forall j, In j s -> (1 <= j < N)%nat) ss).
  { apply Forall_forall. intros s Hin. destruct (in_split _ _ Hin) as (x & y & ->). rewrite concat_app in Hp. cbn [concat] in Hp.
    assert (Hp' : Permutation (s ++ concat y ++ concat x) (seq 1 (N - 1))) by (rewrite <- Hp, app_assoc; apply Permutation_app_comm). split.
    - eapply nodup_left. eapply Permutation_NoDup; [symmetry; exact Hp'|apply seq_NoDup].
    - intros j Hj. assert (Hj' : In j (seq 1 (N - 1))) by (eapply Permutation_in; [exact Hp'|apply in_or_app; now left]). apply in_seq in Hj'. lia. }
  assert (Hne' : Forall (fun s => s <> []) ss).
  { clear - HF Hne. induction HF as [|r s rs' ss HP _ IH]; [constructor|]. inversion Hne; subst. constructor; [|auto]. intros ->. apply Permutation_sym, Permutation_nil in HP. contradiction. }
  assert (Hcost : sum_costs f ss <= routes_cost D rs').
  { clear - HF Hcust Hne' Hf He. unfold sum_costs, routes_cost, sumZ. induction HF as [|r s rs' ss HP _ IH]; [reflexivity|]. inversion Hcust as [|? ? [Q1 Q2] Q3]; subst. inversion Hne'; subst. cbn [map fold_right].
    specialize (IH Q3 ltac:(assumption)). assert (Hc := exact_grown N D f s r Hf He ltac:(assumption) Q1 Q2 HP). lia. }
  eapply Z.le_trans; [apply (H ss)|lia]. split; [exact Hr|]. split; [exact H2|]. split; [exact Hne'|].
  clear - HF Hcust Hfe Hs Ht Hf He Hd. induction HF as [|r s rs' ss HP _ IH]; [constructor|]. inversion Hcust as [|? ? [Q1 Q2] Q3]; subst. inversion Hfe as [|? ? [F1 F2] F3]; subst. constructor; [|auto].
  intros a b -> Hane. split.
  - eapply within_le; [apply (demand_prefix d a b Hd)|]. now rewrite <- (demand_perm d _ _ HP).
  - eapply within_le; [|exact F2]. eapply exact_sub; eauto.
Qed.

(** ** A test of [grows] for examples *)
Definition grows_b (f : tsp) (tour : list nat) : bool :=
  forallb (fun k => let l := skipn k tour ++ firstn k tour in
    forallb (fun i => (0 <=? grown_cost f (firstn i l)) && forallb (fun j => grown_cost f (firstn i l) <=? grown_cost f (firstn j l)) (seq i (S (length tour - i)))) (seq 1 (length tour))) (seq 0 (S (length tour))).
Lemma grows_b_sound f tour : grows_b f tour = true -> grows f tour.
Proof.
  unfold grows_b. rewrite forallb_forall. intros H s s' t (a & b & E & El) Hne.
  specialize (H (length a)). rewrite E in H. rewrite skipn_app, skipn_all, Nat.sub_diag, firstn_app, firstn_all, Nat.sub_diag in H. cbn [skipn firstn app] in H. rewrite app_nil_r, <- El in H.
  assert (Hlen : length (a ++ b) = (length s + length s' + length t)%nat) by (rewrite app_length, Nat.add_comm, <- app_length, <- El, !app_length; lia).
  specialize (H ltac:(apply in_seq; rewrite app_length; lia)). cbn zeta in H. rewrite forallb_forall in H.
  specialize (H (length s) ltac:(apply in_seq; destruct s; [contradiction|cbn [length] in *; lia])). apply andb_true_iff in H as [H1 H2]. rewrite forallb_forall in H2.
  specialize (H2 (length s + length s')%nat ltac:(apply in_seq; lia)).
  rewrite firstn_app, firstn_all, Nat.sub_diag in H1, H2. cbn [firstn] in H1, H2. rewrite app_nil_r in H1, H2.
  rewrite app_assoc, firstn_app, firstn_all2, app_length, Nat.sub_diag in H2 by (rewrite app_length; lia). cbn [firstn] in H2. rewrite app_nil_r in H2. lia.
Qed.
