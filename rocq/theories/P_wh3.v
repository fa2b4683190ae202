(** * Wren and Holliday: what complaining customers do *)
From Verif Require Import Spec Spec_ls Spec_inter PyBase M_util M_routedata M_intra M_inter M_driver Spec_driver M_psavings
     P_base P_cvrp P_rd P_scan P_intra P_intra2 P_inter P_inter2 P_inter3 P_driver P_driver2 P_mj2 M_wh P_wh P_wh2.
From Coq Require Import ZifyBool ZifyNat Lia List Permutation.
Import ListNotations.
Local Open Scope Z_scope.

Lemma set_concat k (r' : list nat) : forall rs, (k < length rs)%nat -> Permutation (nth k rs [] ++ concat (set_nth k r' rs)) (r' ++ concat rs).
Proof.
  induction k as [|k IH]; intros [|r rs] H; cbn [length] in H; try lia; cbn [nth set_nth concat].
  - rewrite !app_assoc. apply Permutation_app_tail, Permutation_app_comm.
  - rewrite app_assoc, (Permutation_app_comm _ r), <- app_assoc, (IH rs) by lia. rewrite !app_assoc. apply Permutation_app_tail, Permutation_app_comm.
Qed.
Lemma insert_perm (rs : list (list nat)) (k : nat) (m1 m2 : list nat) (x : nat) : (k < length rs)%nat -> nth k rs [] = m1 ++ m2 ->
  Permutation (concat (set_nth k (m1 ++ [x] ++ m2) rs)) (x :: concat rs).
Proof.
  intros Hk E. pose proof (set_concat k (m1 ++ [x] ++ m2) rs Hk) as H. rewrite E in H.
  apply Permutation_app_inv_l with (m1 ++ m2). rewrite H. rewrite <- Permutation_middle. rewrite <- !app_assoc. cbn [app].
  rewrite <- Permutation_middle, app_assoc. reflexivity.
Qed.
Lemma mem_nat_in x l : mem_nat x l = true <-> In x l.
Proof. unfold mem_nat. rewrite existsb_exists. split; [intros (y & H & E); apply Nat.eqb_eq in E; now subst|intros H; exists x; now rewrite Nat.eqb_refl]. Qed.
Lemma mem_nat_out x l : mem_nat x l = false <-> ~ In x l.
Proof. rewrite <- mem_nat_in. destruct (mem_nat x l); split; congruence. Qed.

Definition out_of (U asg om : list nat) : list nat := filter (fun n => negb (mem_nat n asg)) U ++ om.
Lemma out_assign U asg om n : NoDup U -> In n U -> ~ In n asg -> Permutation (n :: out_of U (n :: asg) om) (out_of U asg om).
Proof.
  intros HN Hi Hn. unfold out_of. rewrite app_comm_cons. apply Permutation_app_tail.
  induction U as [|u U IH]; [easy|]. inversion HN as [|? ? H1 H2]; subst. cbn [filter]. destruct (Nat.eq_dec u n) as [->|Hne].
  - assert (E : mem_nat n (n :: asg) = true) by (apply mem_nat_in; now left). rewrite E. cbn [negb].
    apply mem_nat_out in Hn. rewrite Hn. cbn [negb]. constructor.
    rewrite (filter_ext_in (fun m => negb (mem_nat m (n :: asg))) (fun m => negb (mem_nat m asg))); [reflexivity|].
    intros m Hm. f_equal. unfold mem_nat. cbn [existsb]. destruct (Nat.eqb m n) eqn:E2; [|reflexivity]. apply Nat.eqb_eq in E2. now subst.
  - destruct Hi as [->|Hi]; [easy|]. assert (E : mem_nat u (n :: asg) = mem_nat u asg).
    { unfold mem_nat. cbn [existsb]. apply Nat.eqb_neq in Hne. now rewrite Hne. }
    rewrite E. destruct (mem_nat u asg); cbn [negb]; [now apply IH|]. rewrite perm_swap. constructor. now apply IH.
Qed.

Section Complain.
Variables (eps : Z) (D : matrix) (d : demands) (C L : limit) (set_order : list nat -> list nat).
Notation exact := (exact_rd D d C).
Notation feas := (feasible D d C L eps eps).
Hypothesis Hset : forall l, Permutation (set_order l) l.

Lemma swap_perm rs n i x r' : swap_at eps D d C L rs n i x r' -> Permutation (x :: concat (set_nth i r' rs)) (n :: concat rs).
Proof using Type.
  intros (Hi & a & b & E & -> & _). pose proof (set_concat i (a ++ [n] ++ b) rs Hi) as H. rewrite E in H.
  apply Permutation_app_inv_l with (a ++ b). cbn [app] in *. rewrite <- !Permutation_middle.
  rewrite <- !app_assoc in H. cbn [app] in H. rewrite <- !Permutation_middle in H.
  rewrite <- !app_assoc. rewrite H. apply Permutation_app_head. apply Permutation_middle.
Qed.

(** Fewer customers are left over, or as many of smaller demand. *)
Definition fewer (out U : list nat) : Prop :=
  (length out < length U)%nat \/ (length out = length U /\ demand d out < demand d U).

Definition cinv (all U : list nat) (K : nat) (rds0 : list routedata) (todo : list nat) (s : cst) : Prop :=
  let '(rds, asg, om, imp) := s in
  exists rs, Forall2 exact rs rds /\ length rs = K /\ Forall feas rs /\ Permutation (concat rs ++ out_of U asg om) all /\
    NoDup todo /\ (forall x, In x todo -> In x U /\ ~ In x asg) /\
    (imp = false -> rds = rds0 /\ asg = [] /\ om = []) /\ (imp = true -> fewer (out_of U asg om) U).

Lemma complain_one_ok all U K rds0 n todo s : NoDup U -> cinv all U K rds0 (n :: todo) s -> cinv all U K rds0 todo (complain_one eps D d C L s n).
Proof using Type.
  clear set_order Hset. intros HU. destruct s as [[[rds asg] om] imp]. intros (rs & H1 & H2 & H3 & H4 & H5 & H6 & H7 & H8).
  inversion H5 as [|? ? N1 N2]; subst. destruct (H6 n (or_introl eq_refl)) as [I1 I2].
  assert (Hkeep : cinv all U (length rs) rds0 todo (rds, asg, om, imp)).
  { exists rs. repeat (split; [assumption||reflexivity|]). split; [intros x Hx; apply H6; now right|]. now split. }
  pose proof (out_assign U asg om n HU I1 I2) as HO.
  assert (Hold : fewer (out_of U asg om) U \/ out_of U asg om = U).
  { destruct imp; [left; now apply H8|right]. destruct (H7 eq_refl) as (_ & -> & ->). unfold out_of. rewrite app_nil_r.
    clear. induction U as [|u U IH]; [reflexivity|]. cbn. f_equal. exact IH. }
  unfold complain_one. destruct (search_ok eps D d C L n rs rds H1) as [Sb Sf].
  destruct (complain_search eps D d C L n rds) as [[[[delta i] p]|] [f|]]; cbn [fst snd] in *; try exact Hkeep.
  1, 3: destruct (Sf f eq_refl) as (x & r1 & r2 & m1 & m2 & A1 & A2 & A3 & A4 & A5 & A6 & A7 & A8);
    exists (set_nth (ft_rd1_idx f) r1 (set_nth (ft_rd2_idx f) r2 rs));
    (split; [apply set_nth_Forall2; [apply set_nth_Forall2; assumption|assumption]|]); (split; [now rewrite !set_nth_length|]);
    (split; [apply Forall_set; [destruct A1 as (_ & a & b & _ & _ & F); exact F|apply Forall_set; assumption]|]);
    (split; [|split; [exact N2|split; [intros y Hy; split; [apply H6; now right|]; intros [->|Y]; [contradiction|]; now apply (H6 y (or_intror Hy))|split; [discriminate|]]]]);
    [|intros _; left; apply Permutation_length in HO; cbn [length] in HO; destruct Hold as [[Hl|[Hl _]]|Hl]; [lia|lia|rewrite Hl in HO; lia]].
  1, 2: assert (A1' : swap_at eps D d C L (set_nth (ft_rd2_idx f) r2 rs) n (ft_rd1_idx f) x r1)
      by (destruct A1 as (B1 & a & b & B2 & B3 & B4); split; [now rewrite set_nth_length|]; exists a, b; rewrite set_nth_other by congruence; auto);
    apply swap_perm in A1'; pose proof (insert_perm rs _ m1 m2 x A2 A4) as HI; rewrite <- A5 in HI; rewrite HI in A1';
    rewrite perm_swap in A1'; apply Permutation_cons_inv in A1'; rewrite A1'; cbn [app];
    rewrite Permutation_middle, HO; exact H4.
  destruct (Sb _ eq_refl) as (r' & B1 & B2 & B3 & B4). destruct (is_set C && (d (at_ (rd_route (nth i rds empty_rd)) p) <? d n))%bool eqn:E; [|exact Hkeep].
  apply andb_true_iff in E as [E1 E2]. apply Z.ltb_lt in E2. set (x := at_ (rd_route (nth i rds empty_rd)) p) in *.
  pose proof B1 as (Hi & a & b & _ & _ & Hf).
  pose proof (Forall2_nth_rel _ _ _ i H1 Hi) as HX. pose proof HX as (X1 & X2 & X3).
  exists (set_nth i r' rs). split.
  { apply set_nth_Forall2; [exact H1|]. split; [exact B3|]. split; [cbn [rd_cost]; lia|]. intros Hc. cbn [rd_demand]. f_equal.
    rewrite (exact_dem _ _ _ _ _ HX Hc). symmetry. exact B4. }
  split; [now rewrite set_nth_length|]. split; [apply Forall_set; assumption|].
  assert (HO2 : Permutation (n :: out_of U (n :: asg) (x :: om)) (x :: out_of U asg om)).
  { rewrite <- HO. unfold out_of. rewrite <- Permutation_middle. apply perm_swap. }
  split.
  { apply swap_perm in B1. apply Permutation_cons_inv with x. rewrite app_comm_cons, B1. cbn [app]. rewrite Permutation_middle, HO2.
    rewrite <- Permutation_middle. constructor. exact H4. }
  split; [exact N2|]. split; [intros y Hy; split; [apply H6; now right|]; intros [->|Y]; [contradiction|]; now apply (H6 y (or_intror Hy))|].
  split; [discriminate|]. intros _.
  pose proof (Permutation_length HO2) as Hl. cbn [length] in Hl. pose proof (demand_perm d _ _ HO2) as Hdm. rewrite !demand_cons in Hdm.
  destruct Hold as [[Ho|[Ho Ho2]]|Ho]; [left; lia|right; split; lia|right; rewrite Ho in *; split; lia].
Qed.

Lemma complain_ok rs rds U : Forall2 exact rs rds -> Forall feas rs -> NoDup (concat rs ++ U) ->
  exists rs' rds' U' b, complain_heuristic eps D d C L set_order rds U = (rds', U', b) /\
    Forall2 exact rs' rds' /\ length rs' = length rs /\ Forall feas rs' /\ Permutation (concat rs' ++ U') (concat rs ++ U) /\
    (b = false -> rds' = rds /\ U' = U) /\ (b = true -> fewer U' U).
Proof using Hset.
  intros H1 H2 H3. assert (HU : NoDup U) by (eapply NoDup_app_r; exact H3). unfold complain_heuristic.
  assert (HG : cinv (concat rs ++ U) U (length rs) rds [] (fold_left (complain_one eps D d C L) (set_order U) (rds, [], [], false))).
  { assert (G : forall l s, cinv (concat rs ++ U) U (length rs) rds l s -> cinv (concat rs ++ U) U (length rs) rds [] (fold_left (complain_one eps D d C L) l s)).
    { induction l as [|n l IH]; intros s Hs; [exact Hs|]. cbn [fold_left]. apply IH. now apply complain_one_ok. }
    apply G. exists rs. split; [exact H1|]. split; [reflexivity|]. split; [exact H2|]. split.
    { unfold out_of. rewrite app_nil_r. apply Permutation_app_head. clear. induction U as [|u U IH]; [constructor|]. cbn. now constructor. }
    split; [eapply Permutation_NoDup; [symmetry; apply Hset|exact HU]|]. split; [intros x Hx; split; [eapply Permutation_in; [apply Hset|exact Hx]|easy]|].
    split; [now repeat split|discriminate]. }
  destruct (fold_left _ _ _) as [[[rds' asg] om] imp]. destruct HG as (rs' & A1 & A2 & A3 & A4 & _ & _ & A7 & A8).
  assert (E : filter (fun n => negb (mem_nat n asg)) U ++ filter (fun n => negb (mem_nat n (filter (fun n => negb (mem_nat n asg)) U))) (nodup Nat.eq_dec om) = out_of U asg om).
  { unfold out_of. f_equal.
    assert (HN : NoDup (out_of U asg om)) by (eapply NoDup_app_r, Permutation_NoDup; [symmetry; exact A4|exact H3]). unfold out_of in HN.
    assert (HN2 : NoDup om) by (eapply NoDup_app_r; exact HN). rewrite (nodup_fixed_point Nat.eq_dec HN2).
    clear - HN. set (l := filter _ U) in *. clearbody l. assert (Hdis : forall x, In x om -> ~ In x l).
    { intros x Hx Hl. induction l as [|y l IH]; [easy|]. cbn in HN. inversion HN; subst. destruct Hl as [->|Hl]; [apply H1, in_or_app; now right|]. now apply IH. }
    clear HN. induction om as [|x om IH]; [reflexivity|]. cbn [filter]. assert (Ex : mem_nat x l = false) by (apply mem_nat_out, Hdis; now left).
    rewrite Ex. cbn [negb]. f_equal. apply IH. intros y Hy. apply Hdis. now right. }
  rewrite E. exists rs', rds', (out_of U asg om), imp. split; [reflexivity|]. split; [exact A1|]. split; [exact A2|]. split; [exact A3|]. split; [exact A4|].
  split; [|exact A8]. intros Hf. destruct (A7 Hf) as (-> & -> & ->). split; [reflexivity|]. unfold out_of. rewrite app_nil_r.
  clear. induction U as [|u U IH]; [reflexivity|]. cbn. f_equal. exact IH.
Qed.
End Complain.
