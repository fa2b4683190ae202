(** * Proofs about the petal algorithm: the integer program *)
From Verif Require Import Spec Spec_rfcs Spec_inter Spec_savings Spec_petal PyBase M_util M_cvrp_ops M_routedata M_inter M_ssavings P_driver P_inter P_inter2 M_petal P_petal2 P_petal3 P_petal4 P_base.
From Coq Require Import ZifyBool ZifyNat Lia Arith List Permutation.
Import ListNotations.
Local Open Scope Z_scope.

Lemma in_range a b i : In i (range a b) <-> (a <= i < b)%nat.
Proof. unfold range. rewrite in_seq. lia. Qed.
Lemma range_nodup a b : NoDup (range a b).
Proof. apply seq_NoDup. Qed.

(** The positions that are chosen, and the routes there *)
Definition sel (n : nat) (x : list bool) : list nat := filter (fun j => nth j x false) (range 0 n).
Definition rs_at (sets : list (list nat)) (js : list nat) : list (list nat) := map (fun j => nth j sets []) js.

Lemma sel_nodup n x : NoDup (sel n x).
Proof. apply NoDup_filter, range_nodup. Qed.
Lemma in_sel n x j : In j (sel n x) <-> (j < n)%nat /\ nth j x false = true.
Proof. unfold sel. rewrite filter_In, in_range. lia. Qed.

(** ** Covering *)
Lemma count_rs_at sets i x : (forall s, In s sets -> NoDup s) -> forall l,
  Z.of_nat (count_occ Nat.eq_dec (concat (rs_at sets (filter (fun j => nth j x false) l))) i) = sumZ (map (fun j => if mem i (nth j sets []) then bz (nth j x false) else 0) l).
Proof.
  intros HN. induction l as [|j l IH]; [reflexivity|]. cbn [filter map]. rewrite sumZ_cons, <- IH. unfold bz.
  assert (Hc : count_occ Nat.eq_dec (nth j sets []) i = if mem i (nth j sets []) then 1%nat else 0%nat).
  { assert (HNj : NoDup (nth j sets [])). { destruct (nth_in_or_default j sets []) as [X| ->]; [auto|constructor]. }
    destruct (mem i (nth j sets [])) eqn:E.
    - apply mem_in in E. apply (NoDup_count_occ' Nat.eq_dec) in E; assumption.
    - apply mem_not in E. now apply (count_occ_not_In Nat.eq_dec). }
  destruct (nth j x false).
  - unfold rs_at. cbn [map concat]. rewrite count_occ_app, Hc. fold (rs_at sets (filter (fun j => nth j x false) l)). destruct (mem i (nth j sets [])); lia.
  - destruct (mem i (nth j sets [])); lia.
Qed.

Lemma covers_count N rs : (forall x, In x (concat rs) -> (1 <= x < N)%nat) -> covers N rs <-> forall i, (1 <= i < N)%nat -> count_occ Nat.eq_dec (concat rs) i = 1%nat.
Proof.
  intros HR. unfold covers. split.
  - intros HP i Hi. rewrite (Permutation_count_occ Nat.eq_dec) in HP. rewrite HP. apply NoDup_count_occ'; [apply seq_NoDup|]. apply in_seq. lia.
  - intros H. apply NoDup_Permutation; [|apply seq_NoDup|].
    + apply (NoDup_count_occ Nat.eq_dec). intros x. destruct (in_dec Nat.eq_dec x (concat rs)) as [X|X].
      * rewrite H; [lia|auto].
      * apply (count_occ_not_In Nat.eq_dec) in X. lia.
    + intros x. rewrite in_seq. split; [intros X; apply HR in X; lia|]. intros X. apply (count_occ_In Nat.eq_dec). rewrite H; lia.
Qed.

Lemma c1_covers N p x : (forall s, In s (scp_sets p) -> NoDup s /\ forall i, In i s -> (1 <= i < N)%nat) ->
  c1 N p x = true <-> covers N (rs_at (scp_sets p) (sel (length (scp_sets p)) x)).
Proof.
  intros HS. unfold c1. rewrite forallb_forall, covers_count.
  - assert (HC : forall i, sumZ (map (fun j => if mem i (nth j (scp_sets p) []) then bz (nth j x false) else 0) (scp_vars p)) = Z.of_nat (count_occ Nat.eq_dec (concat (rs_at (scp_sets p) (sel (length (scp_sets p)) x))) i)).
    { intros i. unfold sel. rewrite count_rs_at; [reflexivity|]. intros s Hs. apply HS, Hs. }
    split; intros H i Hi.
    + specialize (H i). rewrite in_range in H. specialize (H Hi). rewrite HC in H. lia.
    + rewrite HC. apply in_range in Hi. rewrite (H i Hi). reflexivity.
  - intros i Hi. apply in_concat in Hi. destruct Hi as (s & Hs & Hi). unfold rs_at in Hs. apply in_map_iff in Hs. destruct Hs as (j & <- & _).
    destruct (nth_in_or_default j (scp_sets p) []) as [X|X]; [apply (HS _ X), Hi|rewrite X in Hi; easy].
Qed.

(** ** Forbidden combinations *)
Lemma mixed_sum fc x l : NoDup l -> let S := sumZ (map (fun j => if mem j fc then bz (nth j x false) else - bz (nth j x false)) l) in
  S <= Z.of_nat (length (filter (fun j => mem j fc) l)) /\ (S = Z.of_nat (length (filter (fun j => mem j fc) l)) -> forall j, In j l -> nth j x false = mem j fc).
Proof.
  induction l as [|j l IH]; intros Hn; cbv zeta; [split; [reflexivity|easy]|]. inversion Hn; subst. destruct (IH H2) as [I1 I2]. cbn [map filter]. rewrite sumZ_cons.
  set (S := sumZ _) in *. set (n := Z.of_nat (length (filter (fun j => mem j fc) l))) in *.
  destruct (mem j fc) eqn:Em; cbn [length]; rewrite ?Nat2Z.inj_succ; fold n; destruct (nth j x false) eqn:Ex; unfold bz; (split; [lia|]); intros E k [<-|Hk]; try congruence; try lia; apply I2; auto; lia.
Qed.
Lemma filter_mem_length fc n : NoDup fc -> (forall j, In j fc -> (j < n)%nat) -> Permutation (filter (fun j => mem j fc) (range 0 n)) fc.
Proof.
  intros Hn Hj. apply NoDup_Permutation; [apply NoDup_filter, range_nodup|exact Hn|]. intros j. rewrite filter_In, in_range, mem_in. split; [tauto|]. intros H. split; [split; [lia|auto]|exact H].
Qed.
(** Either the combination is respected or exactly it is chosen *)
Lemma combo_choice fc n x : NoDup fc -> (forall j, In j fc -> (j < n)%nat) ->
  sumZ (map (fun j => if mem j fc then bz (nth j x false) else - bz (nth j x false)) (range 0 n)) <= Z.of_nat (length fc) - 1 \/ Permutation (sel n x) fc.
Proof.
  intros Hn Hj. destruct (mixed_sum fc x (range 0 n) (range_nodup 0 n)) as [I1 I2]. pose proof (filter_mem_length fc n Hn Hj) as HP. pose proof (Permutation_length HP) as HL. rewrite HL in *.
  set (S := sumZ _) in *. destruct (Z.eq_dec S (Z.of_nat (length fc))) as [E|E]; [|left; lia]. right. etransitivity; [|exact HP]. unfold sel.
  assert (Hx : filter (fun j => nth j x false) (range 0 n) = filter (fun j => mem j fc) (range 0 n)) by (apply filter_ext_in; intros j X; apply I2; assumption).
  rewrite Hx. reflexivity.
Qed.
Lemma combo_excluded fc n x : NoDup fc -> (forall j, In j fc -> (j < n)%nat) ->
  sumZ (map (fun j => if mem j fc then bz (nth j x false) else - bz (nth j x false)) (range 0 n)) <= Z.of_nat (length fc) - 1 -> ~ Permutation (sel n x) fc.
Proof.
  intros Hn Hj HS HP. assert (E : forall j, In j (range 0 n) -> nth j x false = mem j fc).
  { intros j Hr. apply in_range in Hr. destruct (mem j fc) eqn:Em.
    - apply mem_in in Em. apply (Permutation_in _ (Permutation_sym HP)), in_sel in Em. tauto.
    - destruct (nth j x false) eqn:Ex; [|reflexivity]. exfalso. assert (In j (sel n x)) by (apply in_sel; split; [lia|exact Ex]). apply (Permutation_in _ HP), mem_in in H. congruence. }
  assert (G : forall l, (forall j, In j l -> nth j x false = mem j fc) -> sumZ (map (fun j => if mem j fc then bz (nth j x false) else - bz (nth j x false)) l) = Z.of_nat (length (filter (fun j => mem j fc) l))).
  { clear. induction l as [|j l IH]; intros H; [reflexivity|]. cbn [map filter]. rewrite sumZ_cons, IH by (intros; apply H; now right). rewrite (H j) by (now left). unfold bz. destruct (mem j fc); cbn [length]; lia. }
  rewrite (G _ E), (Permutation_length (filter_mem_length fc n Hn Hj)) in HS. lia.
Qed.

(** ** Petals by index, negative ones among the relaxed *)
Definition zidx (a j : nat) : Z := if (j <? a)%nat then Z.of_nat j else - Z.of_nat (j - a) - 1.
Definition pt_at (base relaxed : list petal) (z : Z) : petal := if 0 <=? z then nth (Z.to_nat z) base (mkpt [] 0) else nth (Z.to_nat (- z - 1)) relaxed (mkpt [] 0).
Definition nodes_at (base relaxed : list petal) (z : Z) : list nat := pt_nodes (pt_at base relaxed z).
Definition nidx (a : nat) (z : Z) : nat := if 0 <=? z then Z.to_nat z else (Z.to_nat (- z - 1) + a)%nat.

Lemma decision_idx x a r : map snd (decision_petals x a r) = map (zidx (length a)) (sel (length a + length r) x).
Proof.
  unfold decision_petals, sel. induction (range 0 (length a + length r)) as [|j l IH]; [reflexivity|]. cbn [flat_map filter]. rewrite map_app, IH. destruct (nth j x false); [|reflexivity]. cbn [map app]. f_equal.
  unfold zidx. destruct (j <? length a)%nat; reflexivity.
Qed.
Lemma decision_routes x a r : map fst (decision_petals x a r) = map (fun j => nth j (pt_routes (a ++ r)) []) (sel (length a + length r) x).
Proof.
  unfold decision_petals, sel. induction (range 0 (length a + length r)) as [|j l IH]; [reflexivity|]. cbn [flat_map filter]. rewrite map_app, IH. destruct (nth j x false); [|reflexivity]. cbn [map app]. f_equal.
  unfold pt_routes. rewrite map_app. destruct (Nat.ltb_spec j (length a)) as [H|H]; cbn [fst].
  - now rewrite app_nth1 by (rewrite map_length; lia).
  - rewrite app_nth2 by (rewrite map_length; lia). now rewrite map_length.
Qed.
Lemma nidx_zidx a j : nidx a (zidx a j) = j.
Proof. unfold nidx, zidx. destruct (Nat.ltb_spec j a) as [H|H]; [destruct (Z.leb_spec 0 (Z.of_nat j)); lia|]. destruct (Z.leb_spec 0 (- Z.of_nat (j - a) - 1)); lia. Qed.
Lemma zidx_nidx a z : z < Z.of_nat a -> zidx a (nidx a z) = z.
Proof. intros H. unfold nidx, zidx. destruct (Z.leb_spec 0 z) as [H0|H0]; [destruct (Nat.ltb_spec (Z.to_nat z) a); lia|]. destruct (Nat.ltb_spec (Z.to_nat (- z - 1) + a) a); lia. Qed.

Lemma current_in nactive forbidden fc : In fc (current_combos nactive forbidden) <-> exists fz, In fz forbidden /\ (forall z, In z fz -> z < Z.of_nat nactive) /\ fc = map (nidx nactive) fz.
Proof.
  unfold current_combos. rewrite in_flat_map. split.
  - intros (fz & Hf & H). destruct (forallb _ fz) eqn:E; [|easy]. destruct H as [<-|[]]. exists fz. rewrite forallb_forall in E. split; [exact Hf|]. split; [|reflexivity].
    intros z Hz. specialize (E z Hz). lia.
  - intros (fz & Hf & Hz & ->). exists fz. split; [exact Hf|]. replace (forallb (fun i => i <? Z.of_nat nactive) fz) with true; [left; reflexivity|]. symmetry. apply forallb_forall. intros z X. specialize (Hz z X). lia.
Qed.
