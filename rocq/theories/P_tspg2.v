(** * The TSP solver with Gurobi: tours *)
From Verif Require Import PyBase M_tspg P_tspg Spec_tspg Spec.
From Coq Require Import ZifyBool ZifyNat Lia List Permutation.
Import ListNotations.

Lemma sumZ_cons a l : sumZ (a :: l) = (a + sumZ l)%Z.
Proof. reflexivity. Qed.
Lemma sumZ_app l1 l2 : sumZ (l1 ++ l2) = (sumZ l1 + sumZ l2)%Z.
Proof. induction l1 as [|a l IH]; [reflexivity|]. cbn [app]. rewrite !sumZ_cons, IH. lia. Qed.
Lemma sumZ_perm l1 l2 : Permutation l1 l2 -> sumZ l1 = sumZ l2.
Proof. induction 1; rewrite ?sumZ_cons; try reflexivity; try lia. Qed.
Lemma sumZ_add {A} (f g : A -> Z) l : sumZ (map (fun a => f a + g a)%Z l) = (sumZ (map f l) + sumZ (map g l))%Z.
Proof. induction l as [|a l IH]; [reflexivity|]. cbn [map]. rewrite !sumZ_cons, IH. lia. Qed.
Lemma sumZ_zero {A} (f : A -> Z) l : (forall a, In a l -> f a = 0%Z) -> sumZ (map f l) = 0%Z.
Proof. induction l as [|a l IH]; intros H; [reflexivity|]. cbn [map]. rewrite sumZ_cons, IH by (intros; apply H; now right). rewrite (H a) by now left. reflexivity. Qed.
Lemma sumZ_swap {A B} (f : A -> B -> Z) m : forall l, sumZ (map (fun a => sumZ (map (f a) m)) l) = sumZ (map (fun b => sumZ (map (fun a => f a b) l)) m).
Proof.
  induction l as [|a l IH]; [cbn [map]; symmetry; apply sumZ_zero; reflexivity|]. cbn [map]. rewrite sumZ_cons, IH, <- sumZ_add. f_equal.
Qed.
Lemma sumZ_ext {A} (f g : A -> Z) l : (forall a, In a l -> f a = g a) -> sumZ (map f l) = sumZ (map g l).
Proof. intros H. f_equal. now apply map_ext_in. Qed.
Lemma sumZ_filter {A} (P : A -> bool) (f : A -> Z) l : sumZ (map (fun a => if P a then f a else 0%Z) l) = sumZ (map f (filter P l)).
Proof. induction l as [|a l IH]; [reflexivity|]. cbn [map filter]. rewrite sumZ_cons, IH. destruct (P a); [reflexivity|lia]. Qed.
Lemma sumZ_pick (f : nat -> Z) a l : NoDup l -> In a l -> sumZ (map (fun b => if Nat.eqb a b then f b else 0%Z) l) = f a.
Proof.
  intros Hn Ha. destruct (in_split a l Ha) as (l1 & l2 & ->). apply NoDup_remove in Hn. destruct Hn as [_ Hn]. rewrite map_app, sumZ_app. cbn [map]. rewrite sumZ_cons, Nat.eqb_refl.
  rewrite !sumZ_zero; [lia| |]; intros b Hb; destruct (Nat.eqb_spec a b) as [<-|]; try reflexivity; exfalso; apply Hn, in_or_app; auto.
Qed.
Lemma path_cost_steps D l : path_cost D l = sumZ (map (fun e => D (fst e) (snd e)) (steps l)).
Proof. induction l as [|a l IH]; [reflexivity|]. destruct l as [|b l]; [reflexivity|]. rewrite steps_cons. cbn [map]. rewrite sumZ_cons, <- IH. reflexivity. Qed.

(** ** The variables of a tour *)
Definition on (e : nat * nat) (i j : nat) : bool := (Nat.eqb (fst e) i && Nat.eqb (snd e) j) || (Nat.eqb (fst e) j && Nat.eqb (snd e) i).
Definition tour_x (p : list nat) (i j : nat) : bool := existsb (fun e => on e i j) (ring_steps p).
Lemma tour_x_in p i j : tour_x p i j = true <-> In (i, j) (ring_steps p) \/ In (j, i) (ring_steps p).
Proof.
  unfold tour_x. rewrite existsb_exists. split.
  - intros ([a b] & H & E). unfold on in E. cbn in E. apply orb_true_iff in E. rewrite !andb_true_iff, !Nat.eqb_eq in E. destruct E as [[-> ->]|[-> ->]]; auto.
  - unfold on. intros [H|H]; eexists; (split; [exact H|]); cbn; rewrite !Nat.eqb_refl; cbn; now rewrite ?orb_true_r.
Qed.
Lemma var_tour_x p i j : var (tour_x p) i j = tour_x p i j.
Proof.
  unfold var. destruct (Nat.le_ge_cases i j) as [G|G]; [rewrite Nat.max_r, Nat.min_l by exact G|now rewrite Nat.max_l, Nat.min_r].
  destruct (tour_x p j i) eqn:E1, (tour_x p i j) eqn:E2; try reflexivity; [apply tour_x_in in E1|apply tour_x_in in E2]; [assert (G' : tour_x p i j = true) by (apply tour_x_in; tauto)|assert (G' : tour_x p j i = true) by (apply tour_x_in; tauto)]; congruence.
Qed.
Lemma tour_ring p : ring (tour_x p) p.
Proof. unfold ring. apply Forall_forall. intros [a b] H. cbn. rewrite var_tour_x. apply tour_x_in. auto. Qed.
Section Tour.
Variables (n : nat) (p : list nat).
Hypotheses (HB : below n p) (Hl : length p = n) (H3 : (3 <= n)%nat).
(** The steps from and to a node of the tour *)
Lemma around a : In a p -> exists y z m, y <> z /\ y <> a /\ z <> a /\ In y p /\ In z p /\ Permutation (ring_steps p) ((a, y) :: (z, a) :: m) /\ forall u v, In (u, v) m -> u <> a /\ v <> a.
Proof.
  intros Ha. destruct (in_split a p Ha) as (l1 & l2 & Ep). assert (P : Permutation p (a :: l2 ++ l1)) by (rewrite Ep; apply (Permutation_app_comm l1 (a :: l2))).
  assert (PR : Permutation (ring_steps p) (ring_steps (a :: l2 ++ l1))) by (rewrite Ep; apply (ring_rotate l1 (a :: l2))).
  assert (Hn : NoDup (a :: l2 ++ l1)) by (eapply Permutation_NoDup; [exact P|apply HB]). assert (HL : length (a :: l2 ++ l1) = n) by (rewrite <- (Permutation_length P); exact Hl).
  remember (l2 ++ l1) as t eqn:Et. clear Et. destruct t as [|y t]; [cbn in HL; lia|]. destruct (exists_last (l := t)) as (t' & z & ->); [destruct t; [cbn in HL; lia|discriminate]|].
  inversion Hn as [|? ? Na Hn']; subst. inversion Hn' as [|? ? Ny Hn'']; subst. exists y, z, (steps (y :: t' ++ [z])).
  assert (Iz : In z (t' ++ [z])) by (apply in_or_app; right; now left).
  split; [intros ->; contradiction|]. split; [intros ->; apply Na; now left|]. split; [intros ->; apply Na; now right|].
  split; [apply (Permutation_in _ (Permutation_sym P)); right; now left|]. split; [apply (Permutation_in _ (Permutation_sym P)); right; now right|]. split.
  - rewrite PR. unfold ring_steps. cbn [firstn app]. rewrite steps_cons. constructor. rewrite <- app_assoc. cbn [app]. change (y :: t' ++ [z; a]) with ((y :: t') ++ z :: [a]). rewrite steps_app. cbn [app steps]. rewrite Permutation_app_comm. reflexivity.
  - intros u v Huv. apply steps_in in Huv. split; intros ->; tauto.
Qed.
Lemma tour_nbrs a y z m : y <> z -> y <> a -> z <> a -> Permutation (ring_steps p) ((a, y) :: (z, a) :: m) -> (forall u v, In (u, v) m -> u <> a /\ v <> a) -> forall b, tour_x p a b = true <-> b = y \/ b = z.
Proof.
  intros N1 N2 N3 P Hm b. rewrite tour_x_in. split.
  - intros [H|H]; apply (Permutation_in _ P) in H; destruct H as [E|[E|H]]; [assert (b = y) by congruence; now left|exfalso; congruence| |exfalso; congruence|assert (b = z) by congruence; now right|]; apply Hm in H; destruct H; congruence.
  - intros [->| ->]; [left|right]; apply (Permutation_in _ (Permutation_sym P)); cbn; auto.
Qed.
Lemma tour_degree : degree_two n (tour_x p).
Proof.
  intros i Hi. assert (Ii : In i p) by (apply (below_all n p HB); lia). destruct (around i Ii) as (y & z & m & N1 & N2 & N3 & Iy & Iz & P & Hm). pose proof (tour_nbrs i y z m N1 N2 N3 P Hm) as G. split.
  - change 2%nat with (length [y; z]). apply Permutation_length, NoDup_Permutation; [apply NoDup_filter, seq_NoDup|repeat constructor; cbn; intuition|].
    intros b. rewrite filter_In, in_seq, var_tour_x, G. cbn. split; [intuition|]. intros [<-|[<-|[]]]; (split; [split; [lia|]|auto]); now apply HB.
  - destruct (tour_x p i i) eqn:E; [|reflexivity]. apply G in E. destruct E; congruence.
Qed.
(** A tour meets all constraints that the callback adds. *)
Lemma tour_meets y : degree_two n y -> meets n (tour_x p) y.
Proof.
  intros Hy s Es. unfold subtour_elim in Es. destruct (subtour_ok n y Hy ltac:(lia)) as (s' & E & _ & HBs & HLs & _). rewrite E in Es. destruct (Nat.ltb_spec (length s') n) as [G|]; [|discriminate]. injection Es as ->.
  destruct (le_lt_dec (inside (tour_x p) s) (length s - 1)) as [|G2]; [assumption|exfalso]. pose proof (full_shut n (tour_x p) tour_degree s HBs ltac:(lia)) as HS.
  destruct s as [|a s]; [cbn in HLs; lia|]. assert (Ia : In a p) by (apply (below_all n p HB); [lia|apply HBs; now left]). destruct (in_split a p Ia) as (l1 & l2 & Ep).
  assert (P : Permutation p (a :: l2 ++ l1)) by (rewrite Ep; apply (Permutation_app_comm l1 (a :: l2))).
  assert (R : Forall (fun e => var (tour_x p) (fst e) (snd e) = true) (ring_steps (a :: l2 ++ l1))).
  { apply (ring_perm (tour_x p) p); [rewrite Ep at 1; apply (ring_rotate l1 (a :: l2))|apply tour_ring]. }
  assert (Hin : forall t b, (forall c, In c (b :: t) -> In c p) -> In b (a :: s) -> Forall (fun e => var (tour_x p) (fst e) (snd e) = true) (steps (b :: t ++ [a])) -> forall c, In c (b :: t) -> In c (a :: s)).
  { induction t as [|b' t IH]; intros b Hp Hb F c Hc; [destruct Hc as [<-|[]]; exact Hb|]. destruct Hc as [<-|Hc]; [exact Hb|]. cbn [app] in F. rewrite steps_cons in F. inversion F as [|? ? F1 F2]; subst.
    apply (IH b'); [intros c' Hc'; apply Hp; now right| |exact F2|exact Hc]. apply (HS b); [exact Hb|apply HB, Hp; right; now left|exact F1]. }
  assert (Hall : incl p (a :: s)). { intros c Hc. apply (Hin (l2 ++ l1) a); [intros c' Hc'; now apply (Permutation_in _ (Permutation_sym P))|now left|exact R|now apply (Permutation_in _ P)]. }
  apply NoDup_incl_length in Hall; [lia|apply HB].
Qed.
End Tour.

(** ** The objective *)
Lemma square_sum (g : nat -> nat -> Z) : (forall i j, g i j = g j i) -> forall n, (forall i, (i < n)%nat -> g i i = 0%Z) ->
  sumZ (map (fun i => sumZ (map (g i) (seq 0 n))) (seq 0 n)) = (2 * sumZ (map (fun i => sumZ (map (g i) (seq 0 (S i)))) (seq 0 n)))%Z.
Proof.
  intros Hs. induction n as [|n IH]; intros H0; [reflexivity|]. assert (E : forall f, sumZ (map f (seq 0 (S n))) = (sumZ (map f (seq 0 n)) + f n)%Z).
  { intros f. rewrite seq_S, map_app, sumZ_app. cbn [map Nat.add]. rewrite sumZ_cons. change (sumZ []) with 0%Z. lia. }
  rewrite !E. rewrite (sumZ_ext _ (fun i => sumZ (map (g i) (seq 0 n)) + g i n)%Z) by (intros; apply E). rewrite sumZ_add, IH by (intros; apply H0; lia).
  rewrite (sumZ_ext (fun i => g i n) (g n)) by (intros; apply Hs). rewrite H0 by lia. lia.
Qed.
Lemma tsp_obj_double n c x : degree_two n x -> (forall i j, c i j = c j i) -> (2 * tsp_obj n c x = sumZ (map (fun i => sumZ (map (fun j => if var x i j then c i j else 0) (seq 0 n))) (seq 0 n)))%Z.
Proof.
  intros H2 Hc. rewrite (square_sum (fun i j => if var x i j then c i j else 0%Z)).
  - unfold tsp_obj. do 2 f_equal. apply map_ext_in. intros i Hi. f_equal. apply map_ext_in. intros j Hj. apply in_seq in Hi, Hj. unfold var. rewrite Nat.max_l, Nat.min_r by lia. reflexivity.
  - intros i j. now rewrite var_sym, Hc.
  - intros i Hi. now rewrite (irr n x H2).
Qed.
(** The objective of a solution that is one tour is the length of the tour. *)
Lemma ring_obj n c x p : degree_two n x -> (forall i j, c i j = c j i) -> ring x p -> below n p -> length p = n -> (3 <= n)%nat -> tsp_obj n c x = path_cost c (p ++ firstn 1 p).
Proof.
  intros H2 Hc HR HB Hl H3. assert (G : (2 * tsp_obj n c x = 2 * path_cost c (p ++ firstn 1 p))%Z); [|lia].
  rewrite tsp_obj_double by assumption. assert (P : Permutation (seq 0 n) p).
  { symmetry. apply NoDup_Permutation_bis; [apply HB|rewrite seq_length; lia|]. intros a Ha. apply in_seq. destruct HB as [_ Hb]. specialize (Hb a Ha). lia. }
  rewrite (sumZ_perm _ _ (Permutation_map _ P)).
  rewrite (sumZ_ext _ (fun a => sumZ (map (fun e => (if Nat.eqb (fst e) a then c a (snd e) else 0) + (if Nat.eqb (snd e) a then c a (fst e) else 0))%Z (ring_steps p)))).
  - rewrite (sumZ_swap (fun a e => (if Nat.eqb (fst e) a then c a (snd e) else 0) + (if Nat.eqb (snd e) a then c a (fst e) else 0))%Z).
    rewrite (sumZ_ext _ (fun e => c (fst e) (snd e) + c (fst e) (snd e))%Z).
    + rewrite sumZ_add, path_cost_steps. unfold ring_steps. lia.
    + intros [u v] He. cbn [fst snd]. assert (I : In u p /\ In v p).
      { apply steps_in in He. rewrite !in_app_iff in He. destruct p as [|q0 p0]; cbn in *; intuition. }
      rewrite sumZ_add, (sumZ_pick (fun a => c a v)), (sumZ_pick (fun a => c a u)) by (try apply HB; apply I). rewrite (Hc v u). reflexivity.
  - intros a Ha. destruct (around n p HB Hl H3 a Ha) as (y & z & m & N1 & N2 & N3 & Iy & Iz & PS & Hm).
    rewrite (sumZ_perm _ _ (Permutation_map _ PS)). cbn [map fst snd]. rewrite !sumZ_cons, Nat.eqb_refl.
    destruct (Nat.eqb_spec y a); [congruence|]. destruct (Nat.eqb_spec z a); [congruence|]. rewrite (sumZ_zero _ m).
    2:{ intros [u v] Huv. apply Hm in Huv. cbn [fst snd]. destruct (Nat.eqb_spec u a); [tauto|]. destruct (Nat.eqb_spec v a); [tauto|]. reflexivity. }
    rewrite sumZ_filter. assert (E : Permutation (filter (var x a) (seq 0 n)) [y; z]).
    { assert (Ey : var x a y = true). { unfold ring in HR. rewrite Forall_forall in HR. apply (HR (a, y)). apply (Permutation_in _ (Permutation_sym PS)). now left. }
      assert (Ez : var x a z = true). { rewrite var_sym. unfold ring in HR. rewrite Forall_forall in HR. apply (HR (z, a)). apply (Permutation_in _ (Permutation_sym PS)). right. now left. }
      assert (Ba : (a < n)%nat) by now apply HB. symmetry. apply NoDup_Permutation_bis; [repeat constructor; cbn; intuition|rewrite (proj1 (H2 a Ba)); cbn; lia|].
      intros b [<-|[<-|[]]]; apply filter_In; (split; [apply in_seq; split; [lia|now apply HB]|assumption]). }
    rewrite (sumZ_perm _ _ (Permutation_map _ E)). cbn [map]. rewrite !sumZ_cons. change (sumZ []) with 0%Z. lia.
Qed.
