(** * The TSP solver with Gurobi: a solver that keeps the rules, and cases *)
From Verif Require Import PyBase M_tspg P_tspg P_tspg2 P_tspg3 P_gap5 P_mbsa6 Spec_tspg Spec_rfcs Spec.
From Coq Require Import ZifyBool ZifyNat Lia List Permutation.
Import ListNotations.

(** Tries all tours. *)
Definition low (c : nat -> nat -> Z) : matrix := fun i j => c (Nat.max i j) (Nat.min i j).
Definition best_tour (n : nat) (c : nat -> nat -> Z) : list nat := 0%nat :: cheapest (low c) (seq 1 (n - 1)) (orders (seq 1 (n - 1))).
Definition try_tours (n : nat) (c : nat -> nat -> Z) : tsp_status :=
  if (n =? 0)%nat then TspSolved (fun _ _ => false) else if (n <? 3)%nat then TspInfeasible else TspSolved (tour_x (best_tour n c)).
Lemma low_obj n c x : tsp_obj n c x = tsp_obj n (low c) x.
Proof. unfold tsp_obj. apply sumZ_ext. intros i _. apply sumZ_ext. intros j Hj. apply in_seq in Hj. unfold low. now rewrite Nat.max_l, Nat.min_r by lia. Qed.
Lemma low_sym c i j : low c i j = low c j i.
Proof. unfold low. now rewrite Nat.max_comm, Nat.min_comm. Qed.
(** All 0-1 matrices in which every node has two neighbours *)
Definition of_list (n : nat) (l : list nat) : nat -> nat -> bool := fun i j => Nat.eqb (nth (i * n + j) l 0%nat) 1.
Definition degree_twob (n : nat) (x : nat -> nat -> bool) : bool := forallb (fun i => Nat.eqb (length (filter (var x i) (seq 0 n))) 2 && negb (x i i)) (seq 0 n).
Lemma degree_twob_ok n x : degree_twob n x = true <-> degree_two n x.
Proof.
  unfold degree_twob, degree_two. rewrite forallb_forall. split; intros H i Hi.
  - specialize (H i ltac:(apply in_seq; lia)). apply andb_true_iff in H. rewrite Nat.eqb_eq, negb_true_iff in H. exact H.
  - apply in_seq in Hi. apply andb_true_iff. rewrite Nat.eqb_eq, negb_true_iff. apply H. lia.
Qed.
Definition all_x (n : nat) : list (nat -> nat -> bool) := filter (degree_twob n) (map (of_list n) (all_lists (n * n) 2)).
Definition same (n : nat) (x y : nat -> nat -> bool) : Prop := forall i j, (i < n)%nat -> (j < n)%nat -> x i j = y i j.
Lemma same_var n x y : same n x y -> forall i j, (i < n)%nat -> (j < n)%nat -> var x i j = var y i j.
Proof. intros H i j Hi Hj. unfold var. apply H; lia. Qed.
Lemma same_elim n x y : same n x y -> subtour_elim x n = subtour_elim y n.
Proof.
  intros H. unfold subtour_elim. replace (edge_list y n) with (edge_list x n); [reflexivity|]. unfold edge_list. rewrite !flat_map_concat_map. f_equal. apply map_ext_in. intros i Hi. f_equal. apply in_seq in Hi. apply filter_ext_in. intros j Hj. apply in_seq in Hj. apply (same_var n); [exact H|lia|lia].
Qed.
Lemma same_degree n x y : same n x y -> degree_two n x -> degree_two n y.
Proof.
  intros H H2 i Hi. rewrite <- (H i i Hi Hi). rewrite <- (filter_ext_in (var x i)); [now apply H2|]. intros j Hj. apply in_seq in Hj. apply (same_var n); [exact H|lia|lia].
Qed.
Lemma all_x_ok n x : degree_two n x -> exists y, In y (all_x n) /\ same n x y.
Proof.
  intros H2. pose (l := map (fun k => if x (k / n)%nat (k mod n)%nat then 1%nat else 0%nat) (seq 0 (n * n))).
  assert (HS : same n x (of_list n l)).
  { intros i j Hi Hj. unfold of_list, l. assert (Hk : (i * n + j < n * n)%nat) by nia. pose (g := fun k => if x (k / n)%nat (k mod n)%nat then 1%nat else 0%nat). change (x i j = Nat.eqb (nth (i * n + j) (map g (seq 0 (n * n))) 0%nat) 1).
    rewrite (nth_indep _ 0%nat (g 0%nat)) by (rewrite map_length, seq_length; exact Hk).
    rewrite map_nth, seq_nth by exact Hk. cbn [Nat.add]. unfold g. rewrite Nat.div_add_l, Nat.div_small, Nat.add_0_r by lia. rewrite Nat.add_comm, Nat.mod_add, Nat.mod_small by lia. destruct (x i j); reflexivity. }
  exists (of_list n l). split; [|exact HS]. apply filter_In. split; [|apply degree_twob_ok; now apply (same_degree n x)]. apply in_map, all_lists_in. split; [unfold l; now rewrite map_length, seq_length|].
  apply Forall_forall. intros k Hk. apply in_map_iff in Hk. destruct Hk as (i & <- & _). destruct (x _ _); lia.
Qed.
Lemma best_tour_perm n c : (1 <= n)%nat -> Permutation (best_tour n c) (seq 0 n).
Proof.
  intros Hn. destruct n as [|n]; [lia|]. unfold best_tour. cbn [seq]. replace (S n - 1)%nat with n by lia. constructor. destruct (cheapest_ok (low c) (orders (seq 1 n)) (seq 1 n)) as ([->|H] & _); [reflexivity|now apply orders_sound].
Qed.
Lemma perm_below n p : Permutation p (seq 0 n) -> below n p /\ length p = n.
Proof. intros P. split; [split; [eapply Permutation_NoDup; [symmetry; exact P|apply seq_NoDup]|]|rewrite (Permutation_length P); apply seq_length]. intros a Ha. apply (Permutation_in _ P) in Ha. apply in_seq in Ha. lia. Qed.
Lemma try_tours_honest : tsp_honest try_tours.
Proof.
  intros n c. unfold try_tours. destruct (Nat.eqb_spec n 0) as [->|N0].
  { exists [fun _ _ => false]. split; [now left|]. split; [constructor; [intros i Hi; lia|constructor]|]. split; [constructor; [intros t H; discriminate|constructor]|]. intros x' _ _. reflexivity. }
  destruct (Nat.ltb_spec n 3) as [G|G].
  { exists []. split; [constructor|]. intros x' H2 _. destruct (H2 0%nat ltac:(lia)) as [E _]. destruct (H2 (n - 1)%nat ltac:(lia)) as [_ E']. pose proof (irr n x' H2 0%nat ltac:(lia)) as I0.
    assert (n = 1 \/ n = 2)%nat as [->| ->] by lia; cbn [seq filter] in E; rewrite I0 in E; [discriminate|]. destruct (var x' 0 1); discriminate. }
  destruct (perm_below n _ (best_tour_perm n c ltac:(lia))) as [B L].
  assert (D2 : degree_two n (tour_x (best_tour n c))) by (apply tour_degree; assumption). assert (FA : Forall (degree_two n) (all_x n)) by (apply Forall_forall; intros y Hy; apply filter_In in Hy; apply degree_twob_ok; tauto).
  exists (tour_x (best_tour n c) :: all_x n). split; [now left|]. split; [now constructor|]. split; [constructor; [apply tour_meets; auto|eapply Forall_impl; [|exact FA]; intros y Hy; apply tour_meets; auto]|].
  intros x' H2 HM. inversion HM as [|? ? _ HM']; subst. destruct (all_x_ok n x' H2) as (y & Hy & HS). assert (HO : meets n x' x') by (intros t Ht; rewrite Forall_forall in HM'; apply (HM' y Hy); now rewrite <- (same_elim n x' y HS)).
  destruct (own_cut n x' H2 ltac:(lia) HO) as (t & _ & HR & HB & HL & _). rewrite !(low_obj n c). rewrite (ring_obj n (low c) x' (0%nat :: t)) by (auto using low_sym).
  rewrite (ring_obj n (low c) (tour_x (best_tour n c)) (best_tour n c)) by (auto using low_sym, tour_ring).
  unfold best_tour. cbn [firstn app]. change (route_cost (low c) (cheapest (low c) (seq 1 (n - 1)) (orders (seq 1 (n - 1)))) <= route_cost (low c) t)%Z.
  assert (P : Permutation t (seq 1 (n - 1))). { destruct n as [|n']; [lia|]. replace (S n' - 1)%nat with n' by lia. apply (Permutation_cons_inv (a := 0%nat)). change (0%nat :: seq 1 n') with (seq 0 (S n')). apply NoDup_Permutation_bis; [apply HB|rewrite seq_length, HL; lia|]. intros a Ha. apply in_seq. destruct HB as [_ Hb]. specialize (Hb a Ha). lia. }
  now apply (cheapest_ok (low c) (orders (seq 1 (n - 1))) (seq 1 (n - 1))), orders_complete.
Qed.
