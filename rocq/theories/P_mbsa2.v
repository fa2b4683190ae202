(** * Matching based savings: the state of the loop *)
From Verif Require Import Spec Spec_inter Spec_savings Spec_rfcs Spec_mbsa PyBase M_mbsa P_base P_mbsa.
From Verif Require P_driver.
Require Import Sorting.Sorted FinFun ZifyBool ZifyNat Lia.
Notation asc := (StronglySorted lt).

(** ** Positions *)
Definition phi (j k : nat) : nat := if Nat.ltb k j then k else (k - 1)%nat.

Lemma del_nth_perm {A} (z : A) : forall j l, (j < length l)%nat -> Permutation l (nth j l z :: del_nth j l).
Proof.
  unfold del_nth. induction j as [|j IH]; intros [|a l] H; simpl in *; try lia; [apply Permutation_refl|].
  rewrite (IH l) at 1 by lia. apply perm_swap.
Qed.
Lemma del_nth_length {A} j (l : list A) : (j < length l)%nat -> length (del_nth j l) = (length l - 1)%nat.
Proof. intros H. unfold del_nth. rewrite app_length, firstn_length, skipn_length. lia. Qed.
Lemma del_nth_nth {A} (z : A) : forall j k l, k <> j -> nth (phi j k) (del_nth j l) z = nth k l z.
Proof.
  unfold del_nth, phi. induction j as [|j IH]; intros k l Hne.
  - destruct k as [|k]; [congruence|]. simpl. rewrite Nat.sub_0_r. destruct l; simpl; [now destruct k|reflexivity].
  - destruct l as [|a l]; [simpl; destruct k; simpl; [reflexivity|destruct (Nat.ltb (S k) (S j)); destruct k; reflexivity]|].
    destruct k as [|k]; [reflexivity|]. specialize (IH k l). simpl skipn.
    replace (Nat.ltb (S k) (S j)) with (Nat.ltb k j) by (apply eq_true_iff_eq; rewrite !Nat.ltb_lt; lia).
    destruct (Nat.ltb_spec k j); [simpl; apply IH; lia|]. destruct k as [|k]; [lia|].
    replace (S (S k) - 1)%nat with (S (S k - 1)) by lia. simpl. rewrite Nat.sub_0_r. simpl in IH. rewrite Nat.sub_0_r in IH. apply IH. lia.
Qed.
Lemma set_nth_perm {A} (x : A) : forall k l, (k < length l)%nat -> Permutation (set_nth k x l) (x :: del_nth k l).
Proof.
  unfold del_nth. induction k as [|k IH]; intros [|a l] H; simpl in *; try lia; [apply Permutation_refl|].
  rewrite (IH l) by lia. apply perm_swap.
Qed.
Lemma phi_inj j k k' : k <> j -> k' <> j -> phi j k = phi j k' -> k = k'.
Proof. unfold phi. destruct (Nat.ltb_spec k j), (Nat.ltb_spec k' j); lia. Qed.
Lemma phi_lt j k n : k <> j -> (k < n)%nat -> (j < n)%nat -> (phi j k < n - 1)%nat.
Proof. unfold phi. destruct (Nat.ltb_spec k j); lia. Qed.
Lemma phi_onto j a n : (a < n - 1)%nat -> (j < n)%nat -> exists k, k <> j /\ (k < n)%nat /\ phi j k = a.
Proof.
  intros H H2. destruct (Nat.lt_ge_cases a j).
  - exists a. unfold phi. destruct (Nat.ltb_spec a j); lia.
  - exists (S a). unfold phi. destruct (Nat.ltb_spec (S a) j); lia.
Qed.
Lemma moved_phi i j : i <> j -> moved i j = phi j i.
Proof. unfold moved, phi. destruct (Nat.ltb_spec j i), (Nat.ltb_spec i j); lia. Qed.

Lemma pair_perm {A} (z : A) l i j : i <> j -> (i < length l)%nat -> (j < length l)%nat ->
  Permutation l (nth i l z :: nth j l z :: del_nth (phi j i) (del_nth j l)).
Proof.
  intros Hne Hi Hj. etransitivity; [apply (del_nth_perm z j l Hj)|]. etransitivity; [|apply perm_swap]. apply perm_skip.
  rewrite <- (del_nth_nth z j i l Hne). apply del_nth_perm. rewrite del_nth_length by assumption. now apply phi_lt.
Qed.
Lemma perm_pair {A} (z : A) l a b r : Permutation l (a :: b :: r) ->
  exists i j, i <> j /\ (i < length l)%nat /\ (j < length l)%nat /\ nth i l z = a /\ nth j l z = b.
Proof.
  intros H. pose proof (Permutation_length H) as HL. simpl in HL. apply (Permutation_nth _ _ z) in H. destruct H as (_ & g & B & I & E).
  exists (g 0%nat), (g 1%nat).
  assert (H0 : (0 < length l)%nat) by lia. assert (H1 : (1 < length l)%nat) by lia.
  split; [intros X; apply I in X; lia|]. split; [now apply B|]. split; [now apply B|].
  split; [rewrite <- (E 0%nat H0); reflexivity|rewrite <- (E 1%nat H1); reflexivity].
Qed.

Lemma mb_joined_perm i j sets : i <> j -> (i < length sets)%nat -> (j < length sets)%nat ->
  Permutation (mb_joined i j sets) (union (set_at sets i) (set_at sets j) :: del_nth (phi j i) (del_nth j sets)).
Proof.
  intros Hne Hi Hj. unfold mb_joined. rewrite moved_phi by assumption. apply set_nth_perm. rewrite del_nth_length by assumption. now apply phi_lt.
Qed.
Lemma mb_joined_length i j sets : (j < length sets)%nat -> length (mb_joined i j sets) = (length sets - 1)%nat.
Proof. intros Hj. unfold mb_joined. now rewrite P_driver.set_nth_length, del_nth_length. Qed.
Lemma mb_joined_new i j sets : i <> j -> (i < length sets)%nat -> (j < length sets)%nat ->
  set_at (mb_joined i j sets) (phi j i) = union (set_at sets i) (set_at sets j).
Proof.
  intros Hne Hi Hj. unfold set_at at 1, mb_joined. rewrite moved_phi by assumption. apply P_driver.set_nth_same. rewrite del_nth_length by assumption. now apply phi_lt.
Qed.
Lemma mb_joined_other i j k sets : i <> j -> k <> i -> k <> j -> set_at (mb_joined i j sets) (phi j k) = set_at sets k.
Proof.
  intros Hne Hi Hj. unfold set_at, mb_joined. rewrite moved_phi by assumption. rewrite P_driver.set_nth_other; [now apply del_nth_nth|].
  intros X. apply phi_inj in X; auto.
Qed.

Lemma in_filtered i j sv w a b : In (w, (a, b)) (filtered i j sv) ->
  exists a0 b0, In (w, (a0, b0)) sv /\ a0 <> i /\ a0 <> j /\ b0 <> i /\ b0 <> j /\ a = phi j a0 /\ b = phi j b0.
Proof.
  unfold filtered. rewrite in_flat_map. intros ([w' [a0 b0]] & Hin & H). revert H.
  destruct (Nat.eqb_spec a0 i), (Nat.eqb_spec b0 i), (Nat.eqb_spec a0 j), (Nat.eqb_spec b0 j); simpl; try (intros []; fail).
  intros [[= <- <- <-]|[]]. exists a0, b0. unfold phi. auto 8.
Qed.
Lemma filtered_in i j sv w a0 b0 : In (w, (a0, b0)) sv -> a0 <> i -> a0 <> j -> b0 <> i -> b0 <> j ->
  In (w, (phi j a0, phi j b0)) (filtered i j sv).
Proof.
  intros Hin H1 H2 H3 H4. unfold filtered. apply in_flat_map. exists (w, (a0, b0)). split; [assumption|].
  destruct (Nat.eqb_spec a0 i), (Nat.eqb_spec b0 i), (Nat.eqb_spec a0 j), (Nat.eqb_spec b0 j); try congruence. simpl. now left.
Qed.
Lemma in_new_tasks a sets s1 s2 k : In (s1, s2, k) (new_tasks a sets) <->
  exists b, b <> a /\ (b < length sets)%nat /\ s1 = set_at sets a /\ s2 = set_at sets b /\ k = (a, b).
Proof.
  unfold new_tasks. rewrite in_flat_map. unfold range. setoid_rewrite in_seq. split.
  - intros (b & Hb & H). destruct (Nat.eqb_spec b a); [destruct H|]. destruct H as [[= <- <- <-]|[]]. exists b. repeat split; auto; lia.
  - intros (b & H1 & H2 & -> & -> & ->). exists b. split; [lia|]. destruct (Nat.eqb_spec b a); [congruence|now left].
Qed.
Lemma in_first_tasks sets s1 s2 k : In (s1, s2, k) (first_tasks sets) <->
  exists a b, (a < b < length sets)%nat /\ s1 = set_at sets a /\ s2 = set_at sets b /\ k = (a, b).
Proof.
  unfold first_tasks. rewrite in_flat_map. unfold range. setoid_rewrite in_seq. split.
  - intros (a & Ha & H). apply in_map_iff in H. destruct H as (b & [= <- <- <-] & Hb). apply in_seq in Hb. exists a, b. repeat split; auto; lia.
  - intros (a & b & H & -> & -> & ->). exists a. split; [lia|]. apply in_map_iff. exists b. split; [reflexivity|]. apply in_seq. lia.
Qed.

Lemma concat_perm {A} (l l' : list (list A)) : Permutation l l' -> Permutation (concat l) (concat l').
Proof.
  induction 1; simpl; [constructor|now apply Permutation_app_head| |eapply Permutation_trans; eassumption].
  rewrite !app_assoc. apply Permutation_app_tail, Permutation_app_comm.
Qed.
Lemma Forall_perm' {A} (P : A -> Prop) l l' : Permutation l l' -> Forall P l -> Forall P l'.
Proof. intros H F. rewrite Forall_forall in *. intros x Hx. apply F. eapply Permutation_in; [apply Permutation_sym; eassumption|assumption]. Qed.
Lemma sumZ_perm l l' : Permutation l l' -> sumZ l = sumZ l'.
Proof. induction 1; simpl; lia. Qed.
Lemma demand_perm' d l l' : Permutation l l' -> demand d l = demand d l'.
Proof. intros H. unfold demand. apply sumZ_perm. now apply Permutation_map. Qed.

Section State.
Variables (ceps seps : Z) (N : nat) (D : matrix) (d : demands) (C L : limit) (W : Z) (f : tsp).
Let calc := calc_savings ceps seps d C L f W.
Let value := wt ceps seps d C L f W.

Definition sets_ok (sets : list nodeset) : Prop :=
  Permutation (concat sets) (seq 1 (N - 1)) /\ Forall asc sets /\ Forall (fun s => s <> []) sets.
Definition set_fits (s : nodeset) : Prop := within C ceps (demand d s) /\ within L seps (snd (f (0%nat :: s))).

Record Inv (st : mbst) : Prop := {
  inv_sets : sets_ok (mb_sets st);
  inv_fits : Forall set_fits (mb_sets st);
  inv_cache : cache_ok f (mb_cache st);
  inv_keys : forall w i j, In (w, (i, j)) (mb_sav st) ->
    i <> j /\ (i < length (mb_sets st))%nat /\ (j < length (mb_sets st))%nat /\
    w = value (set_at (mb_sets st) i) (set_at (mb_sets st) j) /\
    priced ceps seps d C L f (mb_cache st) (set_at (mb_sets st) i) (set_at (mb_sets st) j);
  inv_all : forall i j, (i < length (mb_sets st))%nat -> (j < length (mb_sets st))%nat -> i <> j ->
    In (value (set_at (mb_sets st) i) (set_at (mb_sets st) j), (i, j)) (mb_sav st) \/
    In (value (set_at (mb_sets st) i) (set_at (mb_sets st) j), (j, i)) (mb_sav st) }.

Lemma sets_nodup sets : sets_ok sets -> NoDup (concat sets).
Proof. intros (H & _ & _). eapply Permutation_NoDup; [apply Permutation_sym; exact H|apply seq_NoDup]. Qed.
Lemma set_at_asc sets i : sets_ok sets -> asc (set_at sets i).
Proof.
  intros (_ & H & _). destruct (Nat.lt_ge_cases i (length sets)).
  - rewrite Forall_forall in H. apply H. now apply nth_In.
  - unfold set_at. rewrite nth_overflow by assumption. constructor.
Qed.
Lemma pair_nodup sets i j : sets_ok sets -> i <> j -> (i < length sets)%nat -> (j < length sets)%nat ->
  NoDup (set_at sets i ++ set_at sets j).
Proof.
  intros H Hne Hi Hj. pose proof (sets_nodup _ H) as HN.
  eapply Permutation_NoDup in HN; [|apply concat_perm, (pair_perm [] sets i j Hne Hi Hj)]. simpl in HN. rewrite app_assoc in HN.
  now apply nodup_app_split in HN.
Qed.
Lemma set_customers sets i : sets_ok sets -> (i < length sets)%nat ->
  set_at sets i <> [] /\ NoDup (set_at sets i) /\ (forall j, In j (set_at sets i) -> (1 <= j < N)%nat).
Proof.
  intros H Hi. pose proof (set_at_asc sets i H) as Ha. destruct H as (HP & _ & HF). split; [|split].
  - rewrite Forall_forall in HF. apply HF. now apply nth_In.
  - now apply asc_nodup.
  - intros j Hj. assert (Hin : In j (seq 1 (N - 1))).
    { eapply Permutation_in; [exact HP|]. apply in_concat. exists (set_at sets i). split; [now apply nth_In|assumption]. }
    apply in_seq in Hin. lia.
Qed.
Lemma mb_joined_ok i j sets : sets_ok sets -> i <> j -> (i < length sets)%nat -> (j < length sets)%nat -> sets_ok (mb_joined i j sets).
Proof.
  intros H Hne Hi Hj. pose proof (mb_joined_perm i j sets Hne Hi Hj) as HP. pose proof (pair_perm [] sets i j Hne Hi Hj) as HQ.
  pose proof (pair_nodup sets i j H Hne Hi Hj) as HN. pose proof (set_at_asc sets j H) as Aj. pose proof (set_customers sets i H Hi) as Si.
  destruct (union_joined _ _ Aj HN) as [HU HA]. destruct H as (H1 & H2 & H3). 
  pose proof (Forall_perm' _ _ _ HQ H2) as F2. pose proof (Forall_perm' _ _ _ HQ H3) as F3.
  inversion F2 as [|? ? _ F2']; subst. inversion F2' as [|? ? _ F2'']; subst. inversion F3 as [|? ? _ F3']; subst. inversion F3' as [|? ? _ F3'']; subst.
  split; [|split].
  - rewrite (concat_perm _ _ HP). rewrite <- H1. rewrite (concat_perm _ _ HQ). simpl. rewrite HU. now rewrite <- app_assoc.
  - eapply Forall_perm'; [apply Permutation_sym; exact HP|]. now constructor.
  - eapply Forall_perm'; [apply Permutation_sym; exact HP|]. constructor; [|assumption].
    intros E. rewrite E in HU. destruct (set_at sets i) as [|x s]; [now apply (proj1 Si)|]. simpl in HU. now apply Permutation_nil_cons in HU.
Qed.

Hypothesis Hd0 : d 0%nat = 0.

Lemma value_fits sets i j : sets_ok sets -> i <> j -> (i < length sets)%nat -> (j < length sets)%nat ->
  value (set_at sets i) (set_at sets j) <> W ->
  fits d C L ceps seps f (set_at sets i) (set_at sets j) (union (set_at sets i) (set_at sets j)) /\
  value (set_at sets i) (set_at sets j) = gain f (set_at sets i) (set_at sets j) (union (set_at sets i) (set_at sets j)).
Proof.
  intros H Hne Hi Hj HW. pose proof (pair_nodup sets i j H Hne Hi Hj) as HN. pose proof (set_at_asc sets j H) as Aj.
  pose proof (fits_wt ceps seps d C L f W _ _ Hd0 Aj HN) as E. unfold value, wt in *. destruct (cap_fits _ _ _ _ _ && _); [|congruence]. split; [now apply E|reflexivity].
Qed.
Lemma fits_value sets i j u : sets_ok sets -> i <> j -> (i < length sets)%nat -> (j < length sets)%nat ->
  joined (set_at sets i) (set_at sets j) u -> fits d C L ceps seps f (set_at sets i) (set_at sets j) u ->
  value (set_at sets i) (set_at sets j) = gain f (set_at sets i) (set_at sets j) u.
Proof.
  intros H Hne Hi Hj HJ HF. pose proof (pair_nodup sets i j H Hne Hi Hj) as HN. pose proof (set_at_asc sets j H) as Aj.
  rewrite (joined_unique _ _ _ _ HJ (union_joined _ _ Aj HN)) in *.
  apply (fits_wt ceps seps d C L f W _ _ Hd0 Aj HN) in HF. unfold value, wt. now rewrite HF.
Qed.

Lemma join_inv i j w st : Inv st -> In (w, (i, j)) (mb_sav st) -> w <> W -> Inv (mb_join calc i j st).
Proof.
  intros [I1 I2 I3 I4 I5] Hin HW. destruct (I4 _ _ _ Hin) as (Hne & Hi & Hj & Ew & Hpr).
  set (sets := mb_sets st) in *. pose proof (mb_joined_ok i j sets I1 Hne Hi Hj) as J1. pose proof (mb_joined_length i j sets Hj) as JL.
  unfold mb_join. fold sets. rewrite (moved_phi i j Hne). set (sets' := mb_joined i j sets) in *.
  destruct (price_ok ceps seps d C L f W (new_tasks (phi j i) sets') (mb_cache st) I3) as (P1 & P2 & P3 & P4). fold calc in P1, P2, P3, P4.
  destruct (price calc (mb_cache st) (new_tasks (phi j i) sets')) as [ws c]. simpl in P1, P2, P3, P4. subst ws.
  constructor; simpl; [assumption| |assumption| |].
  - pose proof (mb_joined_perm i j sets Hne Hi Hj) as HP. fold sets' in HP. pose proof (Forall_perm' _ _ _ (pair_perm [] sets i j Hne Hi Hj) I2) as F2.
    inversion F2 as [|? ? _ F2']; subst. inversion F2' as [|? ? _ F2'']; subst.
    eapply Forall_perm'; [apply Permutation_sym; exact HP|]. constructor; [|assumption].
    destruct (value_fits sets i j I1 Hne Hi Hj HW) as [[G1 G2] _]. split; [|exact G2].
    rewrite (demand_perm' d _ (set_at sets i ++ set_at sets j)); [exact G1|]. apply (union_joined _ _ (set_at_asc sets j I1) (pair_nodup sets i j I1 Hne Hi Hj)).
  - intros w0 a b Hab. apply in_app_or in Hab. destruct Hab as [Hab|Hab].
    + apply in_filtered in Hab. destruct Hab as (a0 & b0 & H0 & N1 & N2 & N3 & N4 & -> & ->). destruct (I4 _ _ _ H0) as (Q1 & Q2 & Q3 & Q4 & Q5).
      rewrite JL. unfold sets'. rewrite !mb_joined_other by assumption. split; [intros X; apply phi_inj in X; auto|].
      split; [now apply phi_lt|]. split; [now apply phi_lt|]. split; [assumption|]. now apply (priced_grows ceps seps d C L f (mb_cache st)).
    + apply in_map_iff in Hab. destruct Hab as ([[s1 s2] k] & E & Hk). simpl in E. injection E as <- ->. 
      pose proof (P4 _ _ _ Hk) as Pr. apply in_new_tasks in Hk. destruct Hk as (b0 & Q1 & Q2 & -> & -> & [= -> ->]).
      split; [congruence|]. split; [rewrite JL; now apply phi_lt|]. split; [assumption|]. split; [reflexivity|assumption].
  - intros a b Ha Hb Hab. rewrite JL in Ha, Hb.
    assert (New : forall b, (b < length sets - 1)%nat -> b <> phi j i ->
      In (value (set_at sets' (phi j i)) (set_at sets' b), (phi j i, b)) (map (task_value ceps seps d C L f W) (new_tasks (phi j i) sets'))).
    { intros b0 Hb0 Hn. apply in_map_iff. exists (set_at sets' (phi j i), set_at sets' b0, (phi j i, b0)). split; [reflexivity|]. apply in_new_tasks. exists b0. rewrite JL. auto. }
    destruct (Nat.eq_dec a (phi j i)) as [->|Na]; [left; apply in_or_app; right; apply New; auto|].
    destruct (Nat.eq_dec b (phi j i)) as [->|Nb].
    { right. apply in_or_app. right. unfold value. rewrite wt_comm by (apply set_at_asc; assumption). apply New; auto. }
    destruct (phi_onto j a (length sets) Ha Hj) as (a0 & A1 & A2 & <-). destruct (phi_onto j b (length sets) Hb Hj) as (b0 & B1 & B2 & <-).
    assert (a0 <> i) by congruence. assert (b0 <> i) by congruence. assert (a0 <> b0) by congruence.
    unfold sets'. rewrite !mb_joined_other by assumption.
    destruct (I5 a0 b0 A2 B2) as [H'|H']; [assumption| |]; [left|right]; apply in_or_app; left; now apply filtered_in.
Qed.

Hypothesis HN : (2 <= N)%nat.
Hypothesis Hsol : solver N D f.
Hypothesis Halone : served_alone N D d C L ceps seps.

Lemma solver_tour sets s : sets_ok sets -> In s sets -> exists r, f (0%nat :: s) = (wrap r, route_cost D r) /\ Permutation r s.
Proof.
  intros H Hin. destruct (In_nth _ _ [] Hin) as (i & Hi & E). destruct (set_customers sets i H Hi) as (A & B & G). change (set_at sets i = s) in E. rewrite E in A, B, G.
  destruct (Hsol s A B G) as (r & E' & P). exists r. now split.
Qed.

Lemma sets0_ok : sets_ok (mb_sets0 N).
Proof.
  unfold mb_sets0, range. replace (N - 1)%nat with (N - 1)%nat by lia. split; [|split].
  - replace (concat (map (fun i => [i]) (seq 1 (N - 1)))) with (seq 1 (N - 1)); [reflexivity|].
    generalize (seq 1 (N - 1)). induction l; simpl; congruence.
  - apply Forall_forall. intros s Hs. apply in_map_iff in Hs. destruct Hs as (i & <- & _). repeat constructor.
  - apply Forall_forall. intros s Hs. apply in_map_iff in Hs. destruct Hs as (i & <- & _). discriminate.
Qed.
Lemma sets0_fits : Forall set_fits (mb_sets0 N).
Proof.
  apply Forall_forall. intros s Hs. destruct (solver_tour _ s sets0_ok Hs) as (r & E & P).
  apply in_map_iff in Hs. destruct Hs as (i & <- & Hi). apply in_seq in Hi. apply Permutation_sym, Permutation_length_1_inv in P. subst r.
  unfold set_fits. rewrite E. apply Halone. lia.
Qed.
Lemma start_inv : Inv (mb_start ceps seps N d C L W f).
Proof.
  unfold mb_start. fold calc.
  assert (K0 : cache_ok f []) by (intros s e; discriminate).
  destruct (price_ok ceps seps d C L f W (first_tasks (mb_sets0 N)) [] K0) as (P1 & P2 & P3 & P4). fold calc in P1, P2, P3, P4.
  destruct (price calc [] (first_tasks (mb_sets0 N))) as [ws c]. simpl in P1, P2, P3, P4. subst ws.
  constructor; simpl; [apply sets0_ok|apply sets0_fits|assumption| |].
  - intros w i j H. apply in_map_iff in H. destruct H as ([[s1 s2] k] & E & Hk). simpl in E. injection E as <- ->.
    pose proof (P4 _ _ _ Hk) as Pr. apply in_first_tasks in Hk. destruct Hk as (a & b & Q & -> & -> & [= -> ->]).
    repeat split; try lia; apply Pr; assumption.
  - intros i j Hi Hj Hne.
    assert (New : forall a b, (a < b < length (mb_sets0 N))%nat ->
       In (value (set_at (mb_sets0 N) a) (set_at (mb_sets0 N) b), (a, b)) (map (task_value ceps seps d C L f W) (first_tasks (mb_sets0 N)))).
    { intros a b H. apply in_map_iff. exists (set_at (mb_sets0 N) a, set_at (mb_sets0 N) b, (a, b)). split; [reflexivity|]. apply in_first_tasks. exists a, b. auto. }
    destruct (Nat.lt_ge_cases i j); [left; apply New; lia|]. right. unfold value. rewrite wt_comm by (apply set_at_asc, sets0_ok). apply New. lia.
Qed.
End State.
