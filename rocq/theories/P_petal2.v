(** * Proofs about the petal algorithm: the petals, and customers served more than once *)
From Verif Require Import Spec Spec_rfcs Spec_inter Spec_savings Spec_petal PyBase P_base M_util M_routedata M_inter P_inter2 M_psavings M_ssavings P_ssavings M_sweep P_sweep P_sweep2 P_petal M_petal.
From Coq Require Import ZifyBool ZifyNat Lia Arith List Permutation.
Import ListNotations.
Local Open Scope Z_scope.

Lemma normalize_wrap r : rd_normalize (wrap r) = wrap r \/ rd_normalize (wrap r) = wrap (rev r).
Proof. unfold rd_normalize. destruct (Nat.ltb _ _); [right|now left]. unfold wrap. cbn [rev]. rewrite rev_app_distr. reflexivity. Qed.
Lemma normalize_single n : rd_normalize (wrap [n]) = wrap [n].
Proof. destruct (normalize_wrap [n]); assumption. Qed.
Lemma wrap_inj r r' : wrap r = wrap r' -> r = r'.
Proof. unfold wrap. intros E. injection E as E. now apply app_inv_tail in E. Qed.
Lemma seen_in_true r l : seen_in r l = true <-> In r l.
Proof.
  unfold seen_in. rewrite existsb_exists. split.
  - intros (s & H1 & H2). destruct (list_eq_dec Nat.eq_dec r s); [subst; exact H1|discriminate].
  - intros H. exists r. split; [exact H|]. destruct (list_eq_dec Nat.eq_dec r r); [reflexivity|contradiction].
Qed.

Section Petals.
Variable eps : Z.
Variable N : nat.
Variable D : matrix.
Variable d : demands.
Variables C L : limit.
Hypothesis Hsym : symmetric D.
Hypothesis Htri : triangle D.
Hypothesis Hd : forall n, 0 <= d n.

Definition ok_petal (p : petal) : Prop :=
  exists r, pt_route p = wrap r /\ pt_cost p = route_cost D r /\ petal_route N D d C L eps r.

Lemma feasible_rev r : feasible D d C L eps eps r -> feasible D d C L eps eps (rev r).
Proof using All. unfold feasible. rewrite route_cost_rev by exact Hsym. rewrite (demand_perm d (rev r) r (Permutation_sym (Permutation_rev r))). auto. Qed.
Lemma petal_route_rev r : petal_route N D d C L eps r -> petal_route N D d C L eps (rev r).
Proof using All.
  intros (H1 & H2 & H3 & H4). repeat split.
  - intros E. apply H1. apply (f_equal (@rev nat)) in E. now rewrite rev_involutive in E.
  - now apply NoDup_rev.
  - apply H3. now apply in_rev.
  - apply H3. now apply in_rev.
  - now apply feasible_rev.
  - now apply feasible_rev.
Qed.


(** ** Generated petals *)
Variable f : routing.
Variable order : list nat.
Hypothesis Hf : solver N D f.
Hypothesis Halone : served_alone N D d C L eps eps.
Hypothesis Hperm : Permutation order (seq 1 (N - 1)).

Lemma order_nd : NoDup order.
Proof using All. apply (Permutation_NoDup (Permutation_sym Hperm)), seq_NoDup. Qed.
Lemma order_cust x : In x order -> (1 <= x < N)%nat.
Proof using All. intros H. apply (Permutation_in _ Hperm), in_seq in H. lia. Qed.
Lemma order_len : length order = (N - 1)%nat.
Proof using All. rewrite (Permutation_length Hperm). apply seq_length. Qed.

Definition all_of (g : generated) : list petal := gn_restricted g ++ gn_reduced g ++ gn_extended g.
Definition GInv (g : generated) : Prop :=
  Forall ok_petal (all_of g) /\ (forall r, In r (gn_seen g) <-> In r (pt_routes (all_of g))) /\ NoDup (pt_routes (all_of g)).


Lemma store_inv ratio C_t g rd : good_rd eps eps D d C L order rd -> GInv g ->
  let g' := gen_store eps ratio C C_t g rd in
  GInv g' /\ incl (all_of g) (all_of g') /\ exists p, In p (all_of g') /\ pt_route p = rd_normalize (sr_route rd) /\ (~ In (pt_route p) (pt_routes (all_of g)) -> pt_cost p = sr_cost rd).
Proof using All.
  intros (H1 & H2 & H3 & H4 & H5 & H6 & H7) (G1 & G2 & G3). unfold gen_store.
  destruct H1 as (l & E1 & E2 & E3). rewrite E1. change (0%nat :: l ++ [0%nat]) with (wrap l).
  assert (HP : petal_route N D d C L eps l).
  { repeat split.
    - intros ->. apply Permutation_nil in E3. contradiction.
    - apply (Permutation_NoDup (Permutation_sym E3) H3).
    - apply (order_cust x). apply H4. apply (Permutation_in _ E3). assumption.
    - apply (order_cust x). apply H4. apply (Permutation_in _ E3). assumption.
    - rewrite (demand_perm d l _ E3). exact H7.
    - rewrite <- E2. exact H6. }
  set (r := rd_normalize (wrap l)).
  assert (Hok : ok_petal (mkpt r (sr_cost rd))).
  { unfold r. destruct (normalize_wrap l) as [-> | ->]; [exists l|exists (rev l)]; cbn [pt_route pt_cost]; (split; [reflexivity|]); (split; [rewrite ?route_cost_rev by exact Hsym; exact E2|]);
    [exact HP|now apply petal_route_rev]. }
  destruct (seen_in r (gn_seen g)) eqn:Es.
  - apply seen_in_true, G2 in Es. split; [repeat split; auto; apply G2|]. split; [apply incl_refl|].
    unfold pt_routes in Es. apply in_map_iff in Es. destruct Es as (p & E & Hp). exists p. split; [exact Hp|]. split; [exact E|].
    intros X. exfalso. apply X. unfold pt_routes. apply in_map. exact Hp.
  - assert (Hns : ~ In r (pt_routes (all_of g))). { intros X. apply G2, seen_in_true in X. congruence. }
    assert (HX : forall g', gn_seen g' = gn_seen g ++ [r] -> Permutation (all_of g') (mkpt r (sr_cost rd) :: all_of g) ->
      GInv g' /\ incl (all_of g) (all_of g') /\ exists p, In p (all_of g') /\ pt_route p = r /\ (~ In (pt_route p) (pt_routes (all_of g)) -> pt_cost p = sr_cost rd)).
    { intros g' Eg Pg. split; [split; [|split]|split].
      - apply (Permutation_Forall (Permutation_sym Pg)). constructor; assumption.
      - intros s. rewrite Eg. assert (HPm : Permutation (pt_routes (all_of g')) (r :: pt_routes (all_of g))) by (apply (Permutation_map pt_route Pg)).
        split.
        + intros X. apply (Permutation_in _ (Permutation_sym HPm)). apply in_app_or in X. destruct X as [X|[<-|[]]]; [right; now apply G2|now left].
        + intros X. apply (Permutation_in _ HPm) in X. apply in_or_app. destruct X as [<-|X]; [right; now left|left; now apply G2].
      - apply (Permutation_NoDup (Permutation_sym (Permutation_map pt_route Pg))). cbn. constructor; assumption.
      - intros p Hp. apply (Permutation_in _ (Permutation_sym Pg)). now right.
      - exists (mkpt r (sr_cost rd)). split; [apply (Permutation_in _ (Permutation_sym Pg)); now left|]. auto. }
    destruct (classify eps ratio C C_t (sr_demand rd)); apply HX; try reflexivity; unfold all_of; cbn [gn_restricted gn_reduced gn_extended].
    + rewrite <- app_assoc. symmetry. apply Permutation_middle.
    + rewrite <- app_assoc. cbn [app]. rewrite !app_assoc. symmetry. apply Permutation_middle.
    + rewrite !app_assoc. symmetry. apply Permutation_cons_append.
Qed.

Lemma store_all ratio C_t : forall rds g, Forall (good_rd eps eps D d C L order) rds -> GInv g ->
  let g' := fold_left (gen_store eps ratio C C_t) rds g in
  GInv g' /\ incl (all_of g) (all_of g') /\ forall rd, In rd rds -> exists p, In p (all_of g') /\ pt_route p = rd_normalize (sr_route rd).
Proof using All.
  induction rds as [|rd rds IH]; intros g HF HG; cbn [fold_left].
  - split; [exact HG|]. split; [apply incl_refl|easy].
  - inversion HF; subst. destruct (store_inv ratio C_t g rd) as (A1 & A2 & p & A3 & A4 & _); auto.
    destruct (IH (gen_store eps ratio C C_t g rd)) as (B1 & B2 & B3); auto. split; [exact B1|]. split; [intros x Hx; apply B2, A2, Hx|].
    intros rd' [<-|Hin]; [exists p; auto|auto].
Qed.

Lemma starts_ok ratio C_t fuel : (length order * length order + length order + 1 <= fuel)%nat ->
  forall starts g, (forall s, In s starts -> (s < length order)%nat) -> GInv g ->
  exists g', gen_starts eps ratio C_t D d C L f order fuel starts g = Some g' /\ GInv g' /\ incl (all_of g) (all_of g') /\
    forall s, In s starts -> exists p, In p (all_of g') /\ pt_route p = wrap [node_at order s].
Proof using All.
  intros Hfu. induction starts as [|s rest IH]; intros g Hs HG; cbn [gen_starts].
  - exists g. split; [reflexivity|]. split; [exact HG|]. split; [apply incl_refl|easy].
  - destruct (alt_sweep eps eps N D d C L f order true Hf Halone Hd order_nd order_cust s (Hs s (or_introl eq_refl))) as (rds & E & HF & rd & Hrd & Erd).
    rewrite (E fuel Hfu). destruct (store_all ratio C_t rds g HF HG) as (A1 & A2 & A3).
    destruct (IH (fold_left (gen_store eps ratio C C_t) rds g)) as (g' & B1 & B2 & B3 & B4); auto. { intros; apply Hs; now right. }
    exists g'. split; [exact B1|]. split; [exact B2|]. split; [intros x Hx; apply B3, A2, Hx|].
    intros s' [<-|Hin]; [|auto]. destruct (A3 rd Hrd) as (p & Hp & Ep). exists p. split; [apply B3, Hp|].
    rewrite Ep. rewrite Forall_forall in HF. destruct (HF rd Hrd) as ((l & E1 & _ & E3) & _). rewrite Erd in E3.
    apply Permutation_sym, Permutation_length_1_inv in E3. subst l. rewrite E1. apply normalize_single.
Qed.

Lemma generate_ok ratio C_t :
  exists fuel0 g, (forall fuel, (fuel0 <= fuel)%nat -> generate_petals eps ratio C_t N D d C L f order fuel = Some g) /\ GInv g /\
    forall n, (1 <= n < N)%nat -> exists p, In p (all_of g) /\ pt_route p = wrap [n].
Proof using All.
  assert (HS : forall s, In s (range 0 (N - 1)) -> (s < length order)%nat). { intros s Hs. unfold range in Hs. apply in_seq in Hs. rewrite order_len. lia. }
  assert (HG : GInv (mkgen [] [] [] [])). { repeat split; cbn; auto; try easy. constructor. }
  set (F0 := (length order * length order + length order + 1)%nat).
  destruct (starts_ok ratio C_t F0 ltac:(unfold F0; lia) (range 0 (N - 1)) _ HS HG) as (g & E & G1 & _ & G3).
  exists F0, g. split; [|split; [exact G1|]].
  - intros fuel Hfu. destruct (starts_ok ratio C_t fuel Hfu (range 0 (N - 1)) _ HS HG) as (g' & E' & _). unfold generate_petals. rewrite E'. f_equal.
    (* both runs use the same sweeps *)
    clear - E E' Hfu Hf Halone Hd Hperm HS Hsym Htri. revert E E'. generalize (mkgen [] [] [] []). revert HS. generalize (range 0 (N - 1)).
    induction l as [|s rest IH]; intros HS g0 E E'; cbn [gen_starts] in *; [congruence|].
    destruct (alt_sweep eps eps N D d C L f order true Hf Halone Hd order_nd order_cust s (HS s (or_introl eq_refl))) as (rds & X & _).
    rewrite (X fuel Hfu) in E'. rewrite (X F0 (le_n _)) in E. apply (IH (fun s H => HS s (or_intror H)) _ E E').
  - intros n Hn. assert (In n order) by (apply (Permutation_in _ (Permutation_sym Hperm)), in_seq; lia).
    destruct (in_node_at order n H) as (s & Hs & <-). apply G3. unfold range. apply in_seq. rewrite order_len in Hs. lia.
Qed.
End Petals.
