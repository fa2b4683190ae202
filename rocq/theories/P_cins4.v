(** * Cheapest insertion: the seeds, the handler, the parallel version *)
From Verif Require Import Spec Spec_inter Spec_savings Spec_cins PyBase M_util M_intra M_psavings M_cins Spec_cins2 P_base P_driver P_ssavings P_cins P_cins2 P_cins3.
From Coq Require Import ZifyBool ZifyNat Lia.

(** ** Seeds *)
Definition seed_list (N : nat) (D : matrix) (strain : nat -> nat -> nat -> Z * Z) (m : init_method) : list seed :=
  match m with
  | Farthest => seed_sort (map (fun i => mkseed (D 0%nat i) 0 i i) (range 1 N))
  | Closest => rev (seed_sort (map (fun i => mkseed (D 0%nat i) 0 i i) (range 1 N)))
  | Strain => seed_sort (flat_map (fun i => map (fun j => mkseed (fst (strain 0%nat i j)) (- D i j) i j) (range i N)) (range 1 N))
  end.
Lemma seed_stack_list N D strain m : seed_stack N D strain m = map seed_custs (seed_list N D strain m).
Proof. destruct m; cbn; rewrite ?map_rev; reflexivity. Qed.

Lemma in_range a b x : In x (range a b) <-> (a <= x < b)%nat.
Proof. unfold range. rewrite in_seq. lia. Qed.

Definition seed_of (D : matrix) (strain : nat -> nat -> nat -> Z * Z) (m : init_method) (i j : nat) : seed :=
  match m with Strain => mkseed (fst (strain 0%nat i j)) (- D i j) i j | _ => mkseed (D 0%nat i) 0 i i end.
Lemma in_seed_list N D strain m x : In x (seed_list N D strain m) <->
  exists i j, (1 <= i <= j)%nat /\ (j < N)%nat /\ (m <> Strain -> j = i) /\ x = seed_of D strain m i j.
Proof.
  assert (A : forall y l, In y (seed_sort l) <-> In y l) by (intros; split; apply Permutation_in; [symmetry|]; apply seed_sort_perm).
  destruct m; cbn [seed_list]; rewrite <- ?in_rev, A.
  - rewrite in_map_iff. split.
    + intros (i & <- & H). apply in_range in H. exists i, i. repeat split; try lia. 
    + intros (i & j & H1 & H2 & H3 & ->). rewrite H3 in * by discriminate. exists i. split; [reflexivity|]. apply in_range. lia.
  - rewrite in_map_iff. split.
    + intros (i & <- & H). apply in_range in H. exists i, i. repeat split; try lia. 
    + intros (i & j & H1 & H2 & H3 & ->). rewrite H3 in * by discriminate. exists i. split; [reflexivity|]. apply in_range. lia.
  - rewrite in_flat_map. split.
    + intros (i & Hi & H). apply in_map_iff in H as (j & <- & Hj). apply in_range in Hi, Hj. exists i, j. repeat split; try lia. congruence.
    + intros (i & j & H1 & H2 & H3 & ->). exists i. split; [apply in_range; lia|]. apply in_map_iff. exists j. split; [reflexivity|]. apply in_range. lia.
Qed.

Lemma seeds_singles N D strain m : has_singles (seed_list N D strain m) (seq 1 (N - 1)).
Proof.
  intros c Hc. apply in_seq in Hc. exists (seed_of D strain m c c). split.
  - apply in_seed_list. exists c, c. repeat split; lia.
  - destruct m; auto.
Qed.
Lemma picked_in S u x : picked S u x -> In x S.
Proof. intros (_ & pre & post & -> & _). apply in_elt. Qed.
Lemma singles_plain N D strain m : m <> Strain -> singles (seed_list N D strain m).
Proof.
  intros Hm u x H. apply picked_in, in_seed_list in H as (i & j & _ & _ & H3 & ->). destruct m; cbn; auto. congruence.
Qed.

Lemma rev_desc l pre x post : seed_desc l -> rev l = pre ++ x :: post -> forall y, In y post -> seed_leb x y = true.
Proof.
  intros H E y Hy. apply (f_equal (@rev seed)) in E. rewrite rev_involutive, rev_app_distr in E. cbn in E. rewrite <- app_assoc in E. cbn in E.
  apply in_rev in Hy. apply in_split in Hy as (p1 & p2 & Ey). rewrite Ey in E. rewrite <- app_assoc in E. cbn in E.
  eapply (H p1 y _ E). apply in_or_app. right. left. reflexivity.
Qed.

(** A picked seed comes before every other seed with unrouted customers only. *)
Lemma picked_best N D strain m u x y : picked (seed_list N D strain m) u x -> In y (seed_list N D strain m) -> both y u ->
  y = x \/ (if match m with Closest => true | _ => false end then seed_leb x y else seed_leb y x) = true.
Proof.
  intros (Hx & pre & post & E & Hpre) Hy Hb. rewrite E in Hy. apply in_app_or in Hy as [Hy|[Hy|Hy]]; [exfalso; eapply Hpre; eauto|left; auto|right].
  destruct m; cbn [seed_list] in E.
  - eapply (seed_sort_desc _ pre x post E); auto.
  - eapply rev_desc; [apply seed_sort_desc|exact E|exact Hy].
  - eapply (seed_sort_desc _ pre x post E); auto.
Qed.
Lemma seed_leb_keys x y : seed_leb x y = true -> sd_key x < sd_key y \/ (sd_key x = sd_key y /\ (sd_key2 x < sd_key2 y \/ (sd_key2 x = sd_key2 y /\ (sd_a x <= sd_a y)%nat))).
Proof. unfold seed_leb. intro H. repeat (match type of H with context [if ?c then _ else _] => destruct c eqn:? end; try easy); lia. Qed.

Lemma stops_fit N D strain m u x (fr : nat -> Prop) : (forall j, fr j <-> In j u) -> (forall j, In j u -> (1 <= j < N)%nat) ->
  picked (seed_list N D strain m) u x -> begins_with D strain m fr (chosen_of x).
Proof.
  intros F Hu P. assert (Hx := P). apply picked_in, in_seed_list in Hx as (i & j & Hij & HjN & Hm & ->).
  pose proof (proj1 P) as [Ba Bb].
  destruct m; cbn [begins_with seed_of sd_a sd_b] in *.
  - rewrite Hm in * by discriminate. exists i. unfold chosen_of. cbn [sd_a sd_b]. rewrite Nat.eqb_refl. split; [reflexivity|]. split; [apply F; exact Ba|].
    intros y Hy. apply F in Hy. assert (Hr := Hu y Hy).
    destruct (picked_best N D strain Farthest u _ (mkseed (D 0%nat y) 0 y y) P) as [E|E].
    + apply in_seed_list. exists y, y. repeat split; lia.
    + split; exact Hy.
    + injection E as E1 E2. lia.
    + apply seed_leb_keys in E. cbn in E. lia.
  - rewrite Hm in * by discriminate. exists i. unfold chosen_of. cbn [sd_a sd_b]. rewrite Nat.eqb_refl. split; [reflexivity|]. split; [apply F; exact Ba|].
    intros y Hy. apply F in Hy. assert (Hr := Hu y Hy).
    destruct (picked_best N D strain Closest u _ (mkseed (D 0%nat y) 0 y y) P) as [E|E].
    + apply in_seed_list. exists y, y. repeat split; lia.
    + split; exact Hy.
    + injection E as E1 E2. lia.
    + apply seed_leb_keys in E. cbn in E. lia.
  - exists i, j. unfold chosen_of. cbn [sd_a sd_b]. split; [reflexivity|]. split; [lia|]. split; [apply F; exact Ba|]. split; [apply F; exact Bb|].
    intros y z Hy Hz Hyz. apply F in Hy, Hz. assert (Hr := Hu y Hy). assert (Hr2 := Hu z Hz).
    destruct (picked_best N D strain Strain u _ (mkseed (fst (strain 0%nat y z)) (- D y z) y z) P) as [E|E].
    + apply in_seed_list. exists y, z. repeat split; lia || congruence.
    + split; assumption.
    + injection E as E1 E2 E3 E4. lia.
    + apply seed_leb_keys in E. cbn in E. lia.
Qed.

(** With the criterion of Mole and Jameson and metric distances, a pair never is the best seed. *)
Lemma singles_metric N D den ln mn m : den > 0 -> ln >= 0 -> mn >= 0 ->
  (forall i, D i i = 0) -> symmetric D -> triangle D ->
  singles (seed_list N D (param_criteria den ln mn D) m).
Proof.
  intros Hd Hl Hmn D0 Ds Dt. destruct m; [apply singles_plain; discriminate|apply singles_plain; discriminate|].
  intros u x P. assert (Hx := P). apply picked_in, in_seed_list in Hx as (i & j & Hij & HjN & _ & ->). cbn [seed_of sd_a sd_b] in *.
  destruct (Nat.eq_dec i j) as [|Hne]; [assumption|exfalso]. destruct (proj1 P) as [Ba Bb]. cbn [sd_a sd_b] in Ba, Bb.
  assert (G : forall y, y = i \/ y = j -> seed_leb (seed_of D (param_criteria den ln mn D) Strain y y) (seed_of D (param_criteria den ln mn D) Strain i j) = true).
  { intros y Hy. destruct (picked_best N D _ Strain u _ (seed_of D (param_criteria den ln mn D) Strain y y) P) as [E|E].
    - apply in_seed_list. exists y, y. repeat split; lia || congruence.
    - cbn. destruct Hy as [->| ->]; split; assumption.
    - cbn in E. injection E as E1 E2 E3 E4. lia.
    - exact E. }
  assert (Gi := seed_leb_keys _ _ (G i (or_introl eq_refl))). assert (Gj := seed_leb_keys _ _ (G j (or_intror eq_refl))). clear G.
  cbn [seed_of sd_key sd_key2 sd_a sd_b param_criteria fst] in Gi, Gj. unfold param_criteria in Gi, Gj. cbn [fst] in Gi, Gj.
  rewrite (D0 i) in Gi. rewrite (D0 j) in Gj.
  assert (T1 : D 0%nat j <= D 0%nat i + D i j) by apply Dt. assert (T2 : D 0%nat i <= D 0%nat j + D i j) by (rewrite (Ds i j); apply Dt).
  assert (T3 : 0 <= D i j). { pose proof (Dt i j i) as T. rewrite D0, (Ds j i) in T. lia. }
  set (x := D 0%nat i) in *. set (y := D 0%nat j) in *. set (z := D i j) in *.
  destruct (Z_lt_le_dec y x) as [Hlt|Hle].
  - assert (0 < den * z) by nia. assert (mn * y <= mn * x) by nia. lia.
  - destruct (Z_lt_le_dec ln den).
    + assert ((den - ln) * (y - x) <= (den - ln) * z) by nia. assert (0 <= ln * z) by nia. nia.
    + assert (0 <= (ln - den) * (y - x)) by nia. assert (0 <= den * z) by nia. nia.
Qed.

(** ** The handler *)
Lemma in_encode rs x : x <> 0%nat -> In x (encode rs) <-> In x (concat rs).
Proof.
  intro Hx. unfold encode. cbn [In]. rewrite in_flat_map, in_concat. split.
  - intros [E|(r & Hr & H)]; [congruence|]. apply in_app_or in H as [H|[H|[]]]; [eauto|congruence].
  - intros (r & Hr & H). right. exists r. split; [exact Hr|]. apply in_or_app. auto.
Qed.
Lemma concat_singles U : concat (P_ssavings.singles U) = U.
Proof. unfold P_ssavings.singles. induction U as [|x t IH]; cbn; [reflexivity|]. f_equal. exact IH. Qed.

Lemma handler_ok ceps seps N D d C L S order s : snap_ok ceps seps N D d C L S s -> (forall l, Permutation (order l) l) ->
  exists rs, handler_sol order s = encode rs /\ covers N rs /\ Forall (fun r => r <> []) rs /\ limits ceps seps N D d C L S rs.
Proof.
  intros (os & ds & us & Ho & Hd & Hp & Hne & Hl & Hn & Hu) Hord. unfold handler_sol.
  rewrite (export_both D d C _ _ os ds Ho Hd Hne). set (rest := filter _ _).
  assert (Bd : forall x, In x us -> (1 <= x < N)%nat) by (intros x Hx; apply (bounds N _ _ x Hp); auto).
  assert (Hrest : Permutation rest us).
  { apply NoDup_Permutation.
    - unfold rest. apply NoDup_filter. eapply Permutation_NoDup; [symmetry; apply Hord|exact Hn].
    - apply (nodup_app_r (concat (os ++ ds))). eapply nodups, Hp.
    - intro x. unfold rest. rewrite filter_In, Hu. split.
      + intros [H1 H2]. apply (Permutation_in _ (Hord _)) in H1. apply negb_true_iff, mem_not in H2. split; [exact H1|].
        intro H3. apply H2. apply in_encode; [|exact H3]. pose proof (bounds N _ _ x Hp (or_introl H3)). lia.
      + intros [H1 H2]. split; [eapply Permutation_in; [symmetry; apply Hord|exact H1]|]. apply negb_true_iff, mem_not. intro H3. apply H2.
        assert (Hx : In x us) by (apply Hu; auto). apply in_encode in H3; [exact H3|]. specialize (Bd x Hx). lia. }
  exists ((os ++ ds) ++ P_ssavings.singles rest). split; [|split; [|split]].
  - rewrite P_ssavings.routes2sol_gen_singles.
    + symmetry. apply P_base.encode_app.
    + intros x Hx. apply (Permutation_in _ Hrest) in Hx. specialize (Bd x Hx). lia.
  - unfold covers. rewrite concat_app, concat_singles. eapply Permutation_trans; [|exact Hp]. apply Permutation_app_head, Hrest.
  - apply Forall_app. split; [exact Hne|]. unfold P_ssavings.singles. apply Forall_forall. intros r Hr. apply in_map_iff in Hr as (x & <- & _). discriminate.
  - intros Hs Ha. apply Forall_app. split; [apply Hl; assumption|]. unfold P_ssavings.singles. apply Forall_forall. intros r Hr. apply in_map_iff in Hr as (x & <- & Hx).
    apply Ha. apply Bd. eapply Permutation_in; [exact Hrest|exact Hx].
Qed.

(** ** The parallel version *)
Lemma count_encode rs : Forall (fun r => ~ In 0%nat r) rs -> count_occ Nat.eq_dec (encode rs) 0%nat = S (length rs).
Proof.
  unfold encode. induction 1 as [|r rs H _ IH]; [reflexivity|]. cbn [flat_map]. cbn [count_occ] in *. rewrite !count_occ_app in *.
  destruct (Nat.eq_dec 0 0) as [_|X]; [|congruence]. apply (count_occ_not_In Nat.eq_dec) in H. rewrite H. cbn [count_occ length]. destruct (Nat.eq_dec 0 0); [|congruence]. lia.
Qed.
Lemma covers_no_depot N rs : covers N rs -> Forall (fun r => ~ In 0%nat r) rs.
Proof. intro H. apply Forall_forall. intros r Hr H0. assert (X : In 0%nat (concat rs)) by (apply in_concat; eauto). apply (Permutation_in _ H) in X. apply in_seq in X. lia. Qed.
Lemma nonempty_length rs : Forall (fun r : list nat => r <> []) rs -> (length rs <= length (concat rs))%nat.
Proof. induction 1 as [|r rs H _ IH]; cbn; [lia|]. rewrite app_length. destruct r; [easy|cbn in *; lia]. Qed.

Section Entry.
Variables ceps seps : Z.
Variable N : nat.
Variable D : matrix.
Variable d : demands.
Variables C L : limit.
Variable minimize_K : bool.
Hypothesis d0 : d 0%nat = 0.

(** The solution serves everyone; it is within the limits if the seeds are single customers. *)
Definition good_init (strain : nat -> nat -> nat -> Z * Z) (m : init_method) (rs : list (list nat)) (K : nat) : Prop :=
  covers N rs /\ Forall (fun r => r <> []) rs /\ limits ceps seps N D d C L (seed_list N D strain m) rs /\ (K <= length rs)%nat.

Lemma cins_spec K m strain ident fuel : (1 <= K)%nat -> (N <= fuel)%nat ->
  (exists rs pts, cheapest_insertion_init ceps seps N D d C L minimize_K K m strain ident fuel = Some (Solution (encode rs), pts) /\
     good_init strain m rs K /\ points_ok ceps seps N D d C L (seed_list N D strain m) pts) \/
  (cheapest_insertion_init ceps seps N D d C L minimize_K K m strain ident fuel = Some (RanOutOfSeeds, []) /\
     (singles (seed_list N D strain m) -> (N - 1 < K)%nat)).
Proof.
  intros HK Hf. unfold cheapest_insertion_init. rewrite seed_stack_list.
  destruct (init_spec ceps seps N D d C L strain (try_insert_and_update seps D L minimize_K) ident (seed_list N D strain m)
              (default_ok seps N D d C L minimize_K strain ident) d0 (seeds_singles N D strain m) K _ fuel eq_refl HK Hf) as [(rs & pts & E & H1 & H2 & H3 & H4 & H5)|[E H]].
  - left. exists rs, pts. split; [exact E|]. split; [|exact H4]. repeat split; assumption.
  - right. auto.
Qed.

Lemma cins_rule K m strain ident fuel : (1 <= K)%nat -> (N <= fuel)%nat ->
  (is_set C = true -> forall j, (j < N)%nat -> 0 <= d j) ->
  (is_set L = true -> forall i j k, (i < N)%nat -> (j < N)%nat -> (k < N)%nat -> D i k <= D i j + D j k) ->
  (exists rs pts, cheapest_insertion_init ceps seps N D d C L minimize_K K m strain ident fuel = Some (Solution (encode rs), pts) /\
     built_by_rule N D d C L ceps seps minimize_K strain (begins_with D strain m) K rs) \/
  cheapest_insertion_init ceps seps N D d C L minimize_K K m strain ident fuel = Some (RanOutOfSeeds, []).
Proof.
  intros HK Hf HC HL. unfold cheapest_insertion_init. rewrite seed_stack_list.
  eapply init_rule; try eassumption; [apply seeds_singles|]. intros. eapply stops_fit; eassumption.
Qed.

Lemma cins_auto ident ident' fuel : (2 <= N <= fuel)%nat ->
  exists rs, parallel_insertion_auto ceps seps N D d C L minimize_K ident ident' fuel = Some (Solution (encode rs)) /\
    covers N rs /\ Forall (fun r => r <> []) rs /\ (served_alone N D d C L ceps seps -> Forall (feasible D d C L ceps seps) rs).
Proof.
  intros [HN Hf]. unfold parallel_insertion_auto. set (strain := param_criteria 1 1 0 D).
  assert (Sg : singles (seed_list N D strain Farthest)) by (apply singles_plain; discriminate).
  destruct (cins_spec 1 Farthest strain ident fuel) as [(rs & pts & -> & (H1 & H2 & H3 & H4) & _)|[_ H]]; [lia|exact Hf| |specialize (H Sg); lia].
  rewrite (count_encode rs) by (eapply covers_no_depot; exact H1). replace (S (length rs) - 1)%nat with (length rs) by lia.
  destruct (cins_spec (length rs) Farthest strain ident' fuel) as [(rs' & pts' & -> & (K1 & K2 & K3 & K4) & _)|[_ H]]; [exact H4|exact Hf| |].
  - exists rs'. split; [reflexivity|]. split; [exact K1|]. split; [exact K2|]. intro A. apply K3; [exact Sg|exact A].
  - specialize (H Sg). assert (X := nonempty_length rs H2). rewrite (Permutation_length H1), seq_length in X. lia.
Qed.
End Entry.
