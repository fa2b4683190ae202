(** * The sweep: counterexamples *)
From Verif Require Import Spec Spec_rfcs Spec_inter Spec_savings PyBase P_base M_util M_psavings M_ssavings M_sweep Spec_sweep P_sweep P_sweep4.
From Coq Require Import ZifyBool ZifyNat Lia Arith List Permutation.
Import ListNotations.
Local Open Scope Z_scope.

(** ** A customer that cannot be served alone: the sweep does not end *)
Definition ten_apart : matrix := fun i j => if Nat.eqb i j then 0 else 10.
Section Endless.
Let iter fuel := sw_iter 0 0 ten_apart (fun _ => 1) None (Some 10) (in_sweep_order ten_apart) [1%nat] true false fuel.
Let loop fuelL fuel := sw_loop 0 0 ten_apart (fun _ => 1) None (Some 10) (in_sweep_order ten_apart) [1%nat] true false fuelL fuel.
Definition adding (st : swstate) : Prop :=
  sw_pos st = 0%nat /\ sw_node st = Some 1%nat /\ sw_count st = 0%nat /\ sw_current st = sr_new /\ sw_bound st = 0 /\ sw_complete st = false /\ sw_routed st 1%nat = false.
Definition added (st : swstate) : Prop :=
  sw_pos st = 0%nat /\ sw_node st = None /\ sw_count st = 0%nat /\ sr_set (sw_current st) = [1%nat] /\ sw_complete st = true.
Lemma adding_step fuel st : adding st -> exists st', iter fuel st = Some (inr st') /\ added st'.
Proof.
  destruct st as [pos node routes routed count cur bound complete]. intros (H1 & H2 & H3 & H4 & H5 & H6 & H7). cbn in H1, H2, H3, H4, H5, H6, H7. subst.
  unfold iter, sw_iter. cbn -[sw_proceed]. unfold sw_proceed. rewrite H7. cbn. eexists. split; [reflexivity|].
  repeat split; reflexivity.
Qed.
Lemma added_step fuel st : added st -> iter fuel st = None \/ exists st', iter fuel st = Some (inr st') /\ adding st'.
Proof.
  destruct st as [pos node routes routed count cur bound complete]. intros (H1 & H2 & H3 & H4 & H5). cbn in H1, H2, H3, H4, H5. subst.
  unfold iter, sw_iter. cbn -[sw_proceed ensure_L routed_by_f].
  unfold routed_by_f. rewrite H4. destruct fuel as [|fuel]; [left; reflexivity|].
  right. cbn -[sw_proceed]. rewrite ?H4. cbn -[sw_proceed]. destruct fuel; cbn -[sw_proceed]; (eexists; split; [reflexivity|]; repeat split; reflexivity).
Qed.
Lemma endless_loop fuelL : forall fuel st, adding st \/ added st -> loop fuelL fuel st = None.
Proof.
  induction fuel as [|fuel IH]; intros st H; [reflexivity|]. unfold loop. cbn [sw_loop]. fold (iter fuelL st). destruct H as [H|H].
  - destruct (adding_step fuelL st H) as (st' & E & H'). rewrite E. apply IH. now right.
  - destruct (added_step fuelL st H) as [E|(st' & E & H')]; rewrite E; [reflexivity|]. apply IH. now left.
Qed.
Lemma endless fuel : do_one_sweep 0 0 ten_apart (fun _ => 1) None (Some 10) (in_sweep_order ten_apart) [1%nat] true false 0 fuel = None.
Proof.
  unfold do_one_sweep. cbn [nth_error].
  assert (E := endless_loop fuel fuel (mksw 0 (Some 1%nat) [] (fun x => Nat.eqb x 0) 0 sr_new 0 false)). unfold loop in E. rewrite E; [reflexivity|].
  left. repeat split; reflexivity.
Qed.
End Endless.

(** ** The last sector loses customers from its middle *)
Definition spoke (i : nat) : Z := if Nat.eqb i 0 then 0 else if Nat.eqb i 4 then 20 else 5.
Definition spokes : matrix := fun i j => if Nat.eqb i j then 0 else spoke i + spoke j.
Definition one_heavy : demands := fun i => if Nat.eqb i 1 then 7 else 1.

Definition has_sector (order r : list nat) : bool :=
  existsb (fun k => existsb (fun i => forallb (fun x => mem x r) (firstn (length r) (skipn i (circle true order k))) && (i + length r <=? length order)%nat) (seq 0 (length order)))
    (seq 0 (S (length order))).
Lemma circle_late order k : (length order <= k)%nat -> circle true order k = circle true order (length order).
Proof. intros H. unfold circle. now rewrite !skipn_all2, !firstn_all2 by lia. Qed.
Lemma no_sector order r k a b c : (1 <= length r)%nat -> has_sector order r = false -> circle true order k = a ++ b ++ c -> ~ Permutation b r.
Proof.
  intros Hr H E Hp.
  assert (exists k', (k' <= length order)%nat /\ circle true order k' = a ++ b ++ c) as (k' & Hk & E').
  { destruct (le_lt_dec (length order) k) as [G|G]; [exists (length order); rewrite <- (circle_late order k G); auto|exists k; split; [lia|exact E]]. }
  assert (Hl := f_equal (@length nat) E'). rewrite (Permutation_length (circle_perm true order k')), !app_length, (Permutation_length Hp) in Hl.
  assert (G : has_sector order r = true); [|congruence].
  apply existsb_exists. exists k'. split; [apply in_seq; lia|]. apply existsb_exists. exists (length a). split; [apply in_seq; lia|].
  apply andb_true_iff. split; [|apply Nat.leb_le; lia]. rewrite E', skipn_app, Nat.sub_diag, skipn_all. cbn [app skipn].
  rewrite <- (Permutation_length Hp), firstn_app, Nat.sub_diag, firstn_all. cbn [firstn]. rewrite app_nil_r. apply forallb_forall.
  intros x Hx. unfold mem. apply existsb_exists. exists x. split; [exact (Permutation_in x Hp Hx)|apply Nat.eqb_refl].
Qed.

Lemma spokes_gives : sweep_gives 0 0 spokes one_heavy (Some 7) (Some 50) (in_sweep_order spokes) [1;2;3;4]%nat true 0 [[1];[2;4];[3]]%nat.
Proof.
  exists 60%nat. eexists. split.
  - intros fuel Hf. replace fuel with (60 + (fuel - 60))%nat by lia. generalize (fuel - 60)%nat. intros k. vm_compute. reflexivity.
  - split; [vm_compute; reflexivity|]. repeat constructor; discriminate.
Qed.
Lemma spokes_triangle i j k : spokes i k <= spokes i j + spokes j k.
Proof.
  assert (H : forall x, 0 <= spoke x) by (intros x; unfold spoke; destruct (Nat.eqb x 0), (Nat.eqb x 4); lia).
  assert (Hi := H i). assert (Hj := H j). assert (Hk := H k).
  unfold spokes. destruct (Nat.eqb_spec i j), (Nat.eqb_spec j k), (Nat.eqb_spec i k); subst; try lia.
Qed.
Lemma last_sector : exists N D d C L order rs r,
  served_alone N D d C L 0 0 /\ Permutation order (seq 1 (N - 1)) /\ (forall i, 0 <= d i) /\
  (forall i j, D i j = D j i) /\ (forall i j k, D i k <= D i j + D j k) /\
  sweep_gives 0 0 D d C L (in_sweep_order D) order true 0 rs /\ In r rs /\
  forall start before sector after, circle true order start = before ++ sector ++ after -> ~ Permutation sector r.
Proof.
  exists 5%nat, spokes, one_heavy, (Some 7), (Some 50), [1;2;3;4]%nat, [[1];[2;4];[3]]%nat, [2;4]%nat.
  split; [intros i Hi; destruct i as [|[|[|[|[|]]]]]; try lia; split; vm_compute; intros _; discriminate|].
  split; [apply Permutation_refl|]. split; [intros i; unfold one_heavy; destruct (Nat.eqb i 1); lia|].
  split; [intros i j; unfold spokes; rewrite (Nat.eqb_sym i j); destruct (Nat.eqb j i); lia|].
  split; [exact spokes_triangle|]. split; [exact spokes_gives|]. split; [right; now left|].
  intros k a b c E. apply (no_sector [1;2;3;4]%nat [2;4]%nat k a b c); [cbn; lia|reflexivity|exact E].
Qed.
