(** * Proofs about do_local_search *)
From Verif Require Import Spec Spec_ls Spec_inter PyBase M_util M_routedata M_intra M_inter M_driver Spec_driver
     P_base P_cvrp P_rd P_scan P_intra P_intra2 P_inter P_inter2 P_inter3.
From Coq Require Import ZifyBool ZifyNat Wellfounded.

(** ** Lists *)
Lemma Forall2_len {A B} (R : A -> B -> Prop) l l' : Forall2 R l l' -> length l = length l'.
Proof. induction 1; cbn; lia. Qed.
Lemma NoDup_app_intro {A} (l l' : list A) : NoDup l -> NoDup l' -> (forall x, In x l -> In x l' -> False) -> NoDup (l ++ l').
Proof.
  induction l as [|y l IH]; [easy|]. intros HN HN' Hd. inversion HN; subst. cbn. constructor.
  - intros H. apply in_app_or in H. destruct H as [H|H]; [contradiction|]. apply (Hd y); [now left|exact H].
  - apply IH; [assumption|assumption|]. intros x Hx. apply Hd. now right.
Qed.
Lemma natlist_eqb_spec a b : natlist_eqb a b = true <-> a = b.
Proof. unfold natlist_eqb. destruct (list_eq_dec Nat.eq_dec a b); split; congruence. Qed.

Lemma set_nth_length {A} n (x : A) l : length (set_nth n x l) = length l.
Proof. revert n. induction l as [|y l IH]; intros [|n]; cbn; auto. Qed.
Lemma set_nth_same {A} n (x z : A) l : (n < length l)%nat -> nth n (set_nth n x l) z = x.
Proof. revert n. induction l as [|y l IH]; intros [|n] H; cbn in *; try lia; [reflexivity|]. apply IH. lia. Qed.
Lemma set_nth_other {A} n m (x z : A) l : n <> m -> nth m (set_nth n x l) z = nth m l z.
Proof.
  revert n m. induction l as [|y l IH]; intros [|n] [|m] H; cbn; try reflexivity; try lia.
  apply IH. lia.
Qed.
Lemma set_nth_Forall2 {A B} (R : A -> B -> Prop) n x y : forall l l', Forall2 R l l' -> R x y ->
  Forall2 R (set_nth n x l) (set_nth n y l').
Proof.
  revert n. intros n l l' H HR. revert n. induction H; intros [|n]; cbn; constructor; auto.
Qed.
Lemma set_nth_sum (f : list nat -> Z) n x l : (n < length l)%nat ->
  sumZ (map f (set_nth n x l)) = sumZ (map f l) - f (nth n l []) + f x.
Proof.
  revert n. induction l as [|y l IH]; intros [|n] H; cbn [length] in H; try lia; cbn [set_nth map nth].
  - change (sumZ (f x :: map f l)) with (f x + sumZ (map f l)).
    change (sumZ (f y :: map f l)) with (f y + sumZ (map f l)). lia.
  - change (sumZ (f y :: map f (set_nth n x l))) with (f y + sumZ (map f (set_nth n x l))).
    change (sumZ (f y :: map f l)) with (f y + sumZ (map f l)). rewrite IH by lia. lia.
Qed.

Lemma remove_first_in x y l : In y (remove_first x l) -> In y l.
Proof.
  induction l as [|z l IH]; [easy|]. cbn. destruct (Nat.eqb_spec x z); [now right|].
  intros [->|H]; [now left|right; auto].
Qed.
Lemma remove_first_keep x y l : In y l -> x <> y -> In y (remove_first x l).
Proof.
  induction l as [|z l IH]; [easy|]. cbn. intros [->|H] Hn.
  - destruct (Nat.eqb_spec x y); [contradiction|now left].
  - destruct (Nat.eqb_spec x z); [exact H|right; auto].
Qed.
Lemma remove_first_NoDup x l : NoDup l -> NoDup (remove_first x l).
Proof.
  induction 1 as [|z l Hz Hl IH]; cbn; [constructor|]. destruct (Nat.eqb x z); [exact Hl|].
  constructor; [|exact IH]. intros H. apply Hz. now apply remove_first_in in H.
Qed.
Lemma remove_first_gone x l : NoDup l -> ~ In x (remove_first x l).
Proof.
  induction 1 as [|z l Hz Hl IH]; cbn; [easy|]. destruct (Nat.eqb_spec x z); [now subst|].
  intros [H|H]; [now subst|contradiction].
Qed.
Lemma remove_first_length x l : (length (remove_first x l) <= length l)%nat.
Proof. induction l as [|z l IH]; cbn; [lia|]. destruct (Nat.eqb x z); cbn; lia. Qed.
Lemma remove_first_shorter x l : In x l -> (length (remove_first x l) < length l)%nat.
Proof.
  induction l as [|z l IH]; [easy|]. cbn. intros [->|H].
  - rewrite Nat.eqb_refl. lia.
  - destruct (Nat.eqb x z); [lia|]. cbn. specialize (IH H). lia.
Qed.

(** ** itertools.permutations *)
Lemma selects_split {A} (l : list A) : forall x t, In (x, t) (selects l) <-> exists l1 l2, l = l1 ++ x :: l2 /\ t = l1 ++ l2.
Proof.
  induction l as [|y l IH]; intros x t; cbn [selects].
  - split; [easy|]. intros (l1 & l2 & H & _). destruct l1; discriminate.
  - split.
    + intros [H|H].
      * injection H as <- <-. now exists [], l.
      * apply in_map_iff in H. destruct H as ([x' t'] & E & H). cbn [fst snd] in E. injection E as <- <-.
        apply IH in H. destruct H as (l1 & l2 & -> & ->). now exists (y :: l1), l2.
    + intros ([|y' l1] & l2 & H & ->); injection H as -> ->.
      * now left.
      * right. apply in_map_iff. exists (x, l1 ++ l2). split; [reflexivity|]. apply IH. now exists l1, l2.
Qed.

Lemma in_kperms {A} k : forall (l p : list A), NoDup l ->
  In p (kperms k l) <-> (length p = k /\ NoDup p /\ incl p l).
Proof.
  induction k as [|k IH]; intros l p Hl; cbn [kperms].
  - split.
    + intros [<-|[]]. split; [reflexivity|]. split; [constructor|easy].
    + intros (H & _). left. destruct p; [reflexivity|discriminate].
  - rewrite in_flat_map. split.
    + intros ([x t] & Hs & Hp). cbn [fst snd] in Hp. apply selects_split in Hs. destruct Hs as (l1 & l2 & -> & ->).
      apply in_map_iff in Hp. destruct Hp as (p' & <- & Hp).
      assert (Hl' : NoDup (l1 ++ l2)) by (apply (NoDup_remove_1 _ _ _ Hl)).
      apply IH in Hp; [|exact Hl']. destruct Hp as (H1 & H2 & H3).
      split; [cbn; lia|]. split.
      * constructor; [|exact H2]. intros H. apply H3 in H. exact (NoDup_remove_2 _ _ _ Hl H).
      * intros y [<-|Hy]; [apply in_or_app; right; now left|]. apply H3 in Hy. apply in_app_or in Hy.
        apply in_or_app. destruct Hy; [now left|right; now right].
    + intros (H1 & H2 & H3). destruct p as [|x p]; [discriminate|].
      assert (Hx : In x l) by (apply H3; now left). apply in_split in Hx. destruct Hx as (l1 & l2 & ->).
      exists (x, l1 ++ l2). split; [apply selects_split; now exists l1, l2|]. cbn [fst snd].
      apply in_map. apply IH; [apply (NoDup_remove_1 _ _ _ Hl)|]. inversion H2; subst.
      split; [cbn in H1; lia|]. split; [assumption|].
      intros y Hy. assert (Hy' : In y (l1 ++ x :: l2)) by (apply H3; now right).
      apply in_app_or in Hy'. apply in_or_app. destruct Hy' as [?|[<-|?]]; [now left|contradiction|now right].
Qed.

Lemma kperms1 {A} (l : list A) : kperms 1 l = map (fun x => [x]) l.
Proof.
  assert (G : forall ll : list (A * list A), flat_map (fun p => map (cons (fst p)) (kperms 0 (snd p))) ll = map (fun x => [x]) (map fst ll)).
  { induction ll as [|p ll IH]; [reflexivity|]. cbn [flat_map map]. rewrite IH. reflexivity. }
  change (kperms 1 l) with (flat_map (fun p => map (cons (fst p)) (kperms 0 (snd p))) (selects l)).
  rewrite G. f_equal. induction l as [|x l IH]; [reflexivity|]. cbn [selects map fst]. f_equal.
  rewrite map_map. exact IH.
Qed.

Lemma sorted_increasing ris : NoDup ris -> increasing ris -> is_sorted ris = true.
Proof.
  induction ris as [|a [|b t] IH]; intros HN HI; [reflexivity|reflexivity|].
  change (Nat.leb a b && is_sorted (b :: t) = true). apply andb_true_iff. split.
  - specialize (HI 0%nat 1%nat). cbn in HI. apply Nat.leb_le. lia.
  - apply IH; [now inversion HN|]. intros i j Hij. specialize (HI (S i) (S j)). cbn in HI. apply HI. cbn in *. lia.
Qed.

(** Invariants of loops with break, with the position in the list *)
Lemma for_break_at {A S} (f : A -> S -> S * bool) (Inv : list A -> S -> Prop) (Fin : S -> Prop) l s0 :
  Inv [] s0 ->
  (forall pre x post s, l = pre ++ x :: post -> Inv pre s ->
     let '(s', b) := f x s in if b then Fin s' else Inv (pre ++ [x]) s') ->
  let '(s', b) := for_break l f s0 in if b then Fin s' else Inv l s'.
Proof.
  intros H0 Hstep.
  assert (G : forall post pre s, l = pre ++ post -> Inv pre s ->
      let '(s', b) := for_break post f s in if b then Fin s' else Inv (pre ++ post) s').
  { induction post as [|x post IH]; intros pre s Hl HI; cbn [for_break].
    - now rewrite app_nil_r.
    - pose proof (Hstep pre x post s Hl HI) as HS.
      destruct (f x s) as [s' []]; [exact HS|].
      replace (pre ++ x :: post) with ((pre ++ [x]) ++ post) in * by (now rewrite <- app_assoc).
      now apply IH. }
  exact (G l [] s0 eq_refl H0).
Qed.

Definition nthr (rs : list (list nat)) (i : nat) : list nat := nth i rs [].

(** A group of changes: the routes [ris] are replaced. *)
Definition upd (rs : list (list nat)) (ris : list nat) (rs' : list (list nat)) : list (list nat) :=
  fold_left (fun l p => set_nth (fst p) (snd p) l) (combine ris rs') rs.

Lemma upd_length ris : forall rs' rs, length (upd rs ris rs') = length rs.
Proof.
  induction ris as [|i ris IH]; intros [|r rs'] rs; try reflexivity. unfold upd in IH |- *. cbn [combine fold_left fst snd].
  rewrite IH. apply set_nth_length.
Qed.
Lemma upd_sum (f : list nat -> Z) ris : forall rs' rs, NoDup ris -> (forall i, In i ris -> (i < length rs)%nat) ->
  length rs' = length ris ->
  sumZ (map f (upd rs ris rs')) = sumZ (map f rs) - sumZ (map f (map (nthr rs) ris)) + sumZ (map f rs').
Proof.
  induction ris as [|i ris IH]; intros [|r rs'] rs HN Hlt HL; try discriminate.
  - unfold upd. cbn [combine fold_left map]. change (sumZ []) with 0. lia.
  - unfold upd in IH |- *. cbn [combine fold_left fst snd]. inversion HN; subst. rewrite IH.
    + rewrite set_nth_sum by (apply Hlt; now left). cbn [map]. cbn [sumZ fold_right].
      assert (E : map (nthr (set_nth i r rs)) ris = map (nthr rs) ris).
      { apply map_ext_in. intros j Hj. apply set_nth_other. intros ->. contradiction. }
      rewrite E. fold (sumZ (map f (map (nthr rs) ris))). fold (sumZ (map f rs')). unfold nthr at 2. lia.
    + assumption.
    + intros j Hj. rewrite set_nth_length. apply Hlt. now right.
    + cbn in HL. lia.
Qed.
Lemma upd_other ris : forall rs' rs j, ~ In j ris -> nthr (upd rs ris rs') j = nthr rs j.
Proof.
  induction ris as [|i ris IH]; intros [|r rs'] rs j Hj; try reflexivity.
  unfold upd in IH |- *. cbn [combine fold_left fst snd]. rewrite IH by (intros H; apply Hj; now right).
  apply set_nth_other. intros ->. apply Hj. now left.
Qed.
(** Sums of counts decide permutations of concatenations. *)
Definition cnt (x : nat) (r : list nat) : Z := Z.of_nat (count_occ Nat.eq_dec r x).
Lemma cnt_concat x rs : cnt x (concat rs) = sumZ (map (cnt x) rs).
Proof.
  induction rs as [|r rs IH]; [reflexivity|]. cbn [concat map]. unfold cnt in *. rewrite count_occ_app.
  change (sumZ (Z.of_nat (count_occ Nat.eq_dec r x) :: map (fun r => Z.of_nat (count_occ Nat.eq_dec r x)) rs))
    with (Z.of_nat (count_occ Nat.eq_dec r x) + sumZ (map (fun r => Z.of_nat (count_occ Nat.eq_dec r x)) rs)). lia.
Qed.
Lemma perm_cnt a b : Permutation a b <-> forall x, cnt x a = cnt x b.
Proof.
  rewrite (Permutation_count_occ Nat.eq_dec). unfold cnt. split; intros H x; specialize (H x); lia.
Qed.

Lemma upd_perm ris rs' rs : NoDup ris -> (forall i, In i ris -> (i < length rs)%nat) -> length rs' = length ris ->
  Permutation (concat rs') (concat (map (nthr rs) ris)) -> Permutation (concat (upd rs ris rs')) (concat rs).
Proof.
  intros HN Hlt HL HP. apply perm_cnt. intros x. rewrite !cnt_concat.
  rewrite upd_sum by assumption. rewrite perm_cnt in HP. specialize (HP x). rewrite !cnt_concat in HP. lia.
Qed.

Lemma dist_perm (rs rs' : list (list nat)) : Permutation (concat rs') (concat rs) -> distinct_customers rs -> distinct_customers rs'.
Proof.
  intros HP [H1 H2]. split; [now apply (Permutation_NoDup (Permutation_sym HP))|].
  unfold customers_only in *. rewrite Forall_forall in *. intros x Hx. apply H2. now apply (Permutation_in _ HP).
Qed.
Lemma dist_select rs ris : NoDup ris -> (forall i, In i ris -> (i < length rs)%nat) -> distinct_customers rs ->
  distinct_customers (map (nthr rs) ris).
Proof.
  intros HN Hlt [H1 H2]. split.
  - apply (NoDup_count_occ Nat.eq_dec). intros x.
    assert (HS : sumZ (map (cnt x) (upd rs ris (map (fun _ => []) ris))) =
       sumZ (map (cnt x) rs) - sumZ (map (cnt x) (map (nthr rs) ris)) + sumZ (map (cnt x) (map (fun _ : nat => []) ris))).
    { apply upd_sum; [exact HN|exact Hlt|now rewrite map_length]. }
    rewrite <- !cnt_concat in HS.
    assert (H3 := proj1 (NoDup_count_occ Nat.eq_dec (concat rs)) H1 x).
    assert (H4 : cnt x (concat (map (fun _ : nat => []) ris)) = 0).
    { clear. induction ris as [|i ris IH]; [reflexivity|exact IH]. }
    unfold cnt in *. lia.
  - unfold customers_only in *. rewrite Forall_forall in *. intros x Hx. apply H2. apply in_concat in Hx.
    destruct Hx as (r & Hr & Hx). apply in_map_iff in Hr. destruct Hr as (i & <- & Hi).
    apply in_concat. exists (nthr rs i). split; [apply nth_In; now apply Hlt|exact Hx].
Qed.

Section Changes.
Variables (good : list nat -> Prop) (prog : list (list nat) -> list (list nat) -> Prop).
Lemma upd_good ris : forall rs' rs, Forall good rs -> Forall good rs' -> Forall good (upd rs ris rs').
Proof.
  induction ris as [|i ris IH]; intros [|r rs'] rs H1 H2; try exact H1.
  unfold upd in IH |- *. cbn [combine fold_left fst snd]. inversion H2; subst. apply IH; [|assumption].
  assert (G : forall l n, Forall good l -> Forall good (set_nth n r l)).
  { induction l as [|y l IHl]; intros [|n] HF; cbn; inversion HF; subst; constructor; auto. }
  now apply G.
Qed.

(** ** Applying a result *)
Inductive changes : list (list nat) -> list (list nat) -> Prop :=
| ch_one : forall rs ris rs', NoDup ris -> (forall i, In i ris -> (i < length rs)%nat) -> length rs' = length ris ->
    Permutation (concat rs') (concat (map (nthr rs) ris)) ->
    (Forall good (map (nthr rs) ris) -> Forall good rs') -> prog (map (nthr rs) ris) rs' ->
    (forall i, In i ris -> nthr rs i <> []) -> changes rs (upd rs ris rs')
| ch_more : forall a b c, changes a b -> changes b c -> changes a c.

Lemma changes_keep rs rs2 : changes rs rs2 ->
  length rs2 = length rs /\ Permutation (concat rs2) (concat rs) /\ (Forall good rs -> Forall good rs2).
Proof.
  induction 1 as [rs ris rs' HN Hlt HL HP HG _ _|a b c _ (A1 & A2 & A3) _ (B1 & B2 & B3)].
  - split; [apply upd_length|]. split; [now apply upd_perm|]. intros HF. apply upd_good; [exact HF|].
    apply HG. apply Forall_forall. intros r Hr. apply in_map_iff in Hr. destruct Hr as (i & <- & Hi).
    rewrite Forall_forall in HF. apply HF. apply nth_In. now apply Hlt.
  - split; [lia|]. split; [now transitivity (concat b)|]. auto.
Qed.

Definition reach (rs0 rs : list (list nat)) : Prop := rs = rs0 \/ changes rs0 rs.
Lemma reach_trans a b c : reach a b -> reach b c -> reach a c.
Proof. intros [->|H1] [->|H2]; try (now left); try (now right). right. now apply (ch_more a b c). Qed.

Lemma dist_reach a b : reach a b -> distinct_customers a -> distinct_customers b.
Proof. intros [->|H] HD; [exact HD|]. exact (dist_perm _ _ (proj1 (proj2 (changes_keep _ _ H))) HD). Qed.

End Changes.
(** ** The state of the search *)
Section Driver.
Variables (eps : Z) (it : iter_opt) (sem : nat -> ls_op) (first : bool).
Variables (rel : list nat -> routedata -> Prop) (good : list nat -> Prop).
Variable prog : list (list nat) -> list (list nat) -> Prop.
Variable ls_ops : list nat.
Local Notation changes := (changes good prog).
Local Notation reach := (reach good prog).
Local Notation changes_keep := (changes_keep good prog).
Local Notation dist_reach := (dist_reach good prog).
Local Notation reach_trans := (reach_trans good prog).
Local Notation ch_more := (ch_more good prog).
Hypothesis Hrel : forall r rd, rel r rd -> rd_route rd = wrap r.
Hypothesis Hops : forall op, In op ls_ops -> op_sound rel good prog (sem op).

(** The state describes the routes [rs]. *)
Record inv (rs : list (list nat)) (st : lstate) : Prop := {
  inv_rel : Forall2 rel rs (st_rds st);
  inv_nodup : NoDup (st_idxs st);
  inv_idxs : forall i, In i (st_idxs st) <-> (i < length rs)%nat /\ nthr rs i <> [];
  inv_c2o : forall ris op, In (ris, op) (st_opt st) -> forall ri, In ri ris -> In (ri, ris) (st_c2o st);
  inv_opt : forall ris op, In (ris, op) (st_opt st) -> In op ls_ops -> call_op (sem op) st first ris = None
}.

Lemma inv_len rs st : inv rs st -> length (st_rds st) = length rs.
Proof. intros H. symmetry. apply (Forall2_len _ _ _ (inv_rel _ _ H)). Qed.

Lemma call_ext o st st' ris : (forall ri, In ri ris -> route_at st ri = route_at st' ri) ->
  call_op o st first ris = call_op o st' first ris.
Proof. intros H. unfold call_op. f_equal. apply map_ext_in. exact H. Qed.

Lemma apply_one_inv rs st ri r rd : inv rs st -> rel r rd -> In ri (st_idxs st) ->
  inv (set_nth ri r rs) (apply_one st (ri, rd)).
Proof.
  intros HI HR Hin. pose proof (inv_len _ _ HI) as HL. pose proof (proj1 (inv_idxs _ _ HI ri) Hin) as [Hlt Hne].
  pose proof (Hrel _ _ HR) as Hw.
  assert (Hemp : (length (rd_route rd) <=? 2)%nat = true <-> r = []).
  { rewrite Hw, wrap_length. rewrite Nat.leb_le. destruct r; cbn [length]; split; try easy; lia. }
  assert (Hkeep : forall ris op, In (ris, op) (st_opt (apply_one st (ri, rd))) -> In (ris, op) (st_opt st) /\ ~ In ri ris).
  { intros ris op H. cbn [apply_one st_opt] in H. apply filter_In in H. destruct H as [H HF]. split; [exact H|].
    intros Hri. apply negb_true_iff in HF. cbn [fst] in HF.
    assert (X : existsb (natlist_eqb ris) (map snd (filter (fun q => Nat.eqb ri (fst q)) (st_c2o st))) = true).
    { apply existsb_exists. exists ris. split; [|now apply natlist_eqb_spec].
      apply in_map_iff. exists (ri, ris). split; [reflexivity|]. apply filter_In. split.
      - exact (inv_c2o _ _ HI ris op H ri Hri).
      - apply Nat.eqb_refl. }
    congruence. }
  constructor.
  - cbn. apply set_nth_Forall2; [exact (inv_rel _ _ HI)|exact HR].
  - cbn. destruct (length (rd_route rd) <=? 2)%nat; [apply remove_first_NoDup|]; exact (inv_nodup _ _ HI).
  - intros i. rewrite set_nth_length. unfold nthr.
    destruct (Nat.eq_dec ri i) as [<-|Hd].
    + rewrite set_nth_same by exact Hlt. cbn [apply_one st_idxs].
      destruct (length (rd_route rd) <=? 2)%nat eqn:E.
      * assert (r = []) by (now apply Hemp). split; [|easy]. intros H1.
        exfalso. exact (remove_first_gone _ _ (inv_nodup _ _ HI) H1).
      * assert (r <> []) by (intros Er; apply Hemp in Er; congruence). tauto.
    + rewrite set_nth_other by exact Hd. cbn [apply_one st_idxs].
      change (nth i rs []) with (nthr rs i). rewrite <- (inv_idxs _ _ HI i).
      destruct (length (rd_route rd) <=? 2)%nat; [|reflexivity]. split; [apply remove_first_in|].
      intros H. now apply remove_first_keep.
  - intros ris op H ri' Hri'. apply Hkeep in H. exact (inv_c2o _ _ HI ris op (proj1 H) ri' Hri').
  - intros ris op H Hop. apply Hkeep in H. destruct H as [H Hn].
    rewrite <- (inv_opt _ _ HI ris op H Hop). apply call_ext. intros ri' Hri'.
    unfold route_at. cbn [apply_one st_rds]. apply set_nth_other. intros ->. contradiction.
Qed.

Lemma apply_group_inv ris : forall rs' rds' rs st, inv rs st -> Forall2 rel rs' rds' -> length rs' = length ris ->
  NoDup ris -> incl ris (st_idxs st) ->
  inv (upd rs ris rs') (apply_result st (combine ris rds')) /\
  (length (st_idxs (apply_result st (combine ris rds'))) <= length (st_idxs st))%nat /\
  (In [] rs' -> (length (st_idxs (apply_result st (combine ris rds'))) < length (st_idxs st))%nat) /\
  (forall j, In j (st_idxs st) -> ~ In j ris -> In j (st_idxs (apply_result st (combine ris rds'))) /\
      route_at (apply_result st (combine ris rds')) j = route_at st j).
Proof.
  induction ris as [|i ris IH]; intros rs' rds' rs st HI HF HL HN Hincl.
  - destruct rs'; [|discriminate]. inversion HF; subst. unfold upd, apply_result. cbn [combine fold_left].
    split; [exact HI|]. split; [lia|]. split; [easy|]. tauto.
  - destruct rs' as [|r rs']; [discriminate|]. inversion HF as [|r0 rd rs0 rds0 Hr HF']; subst.
    inversion HN as [|i0 l0 Hni HN']; subst.
    assert (Hi : In i (st_idxs st)) by (apply Hincl; now left).
    pose proof (apply_one_inv rs st i r rd HI Hr Hi) as HI1.
    unfold upd, apply_result in *. cbn [combine fold_left fst snd].
    set (st1 := apply_one st (i, rd)) in *.
    assert (Hst1 : forall j, In j (st_idxs st) -> i <> j -> In j (st_idxs st1)).
    { intros j Hj Hne. unfold st1. cbn. destruct (length (rd_route rd) <=? 2)%nat; [now apply remove_first_keep|exact Hj]. }
    assert (Hle : (length (st_idxs st1) <= length (st_idxs st))%nat).
    { unfold st1. cbn. destruct (length (rd_route rd) <=? 2)%nat; [apply remove_first_length|lia]. }
    assert (Hincl' : incl ris (st_idxs st1)).
    { intros j Hj. apply Hst1; [apply Hincl; now right|]. intros ->. contradiction. }
    destruct (IH rs' rds0 (set_nth i r rs) st1 HI1 HF' ltac:(cbn in HL; lia) HN' Hincl') as (A1 & A2 & A3 & A4).
    split; [exact A1|]. split; [lia|]. split.
    + intros [->|H0]; [|specialize (A3 H0); lia].
      assert (length (st_idxs st1) < length (st_idxs st))%nat; [|lia].
      unfold st1. cbn. rewrite (Hrel _ _ Hr), wrap_length. cbn. now apply remove_first_shorter.
    + intros j Hj Hn. assert (Hij : i <> j) by (intros ->; apply Hn; now left).
      destruct (A4 j (Hst1 j Hj Hij)) as [B1 B2]; [intros H; apply Hn; now right|].
      split; [exact B1|]. rewrite B2. unfold route_at, st1. cbn. now apply set_nth_other.
Qed.

(** ** What a search returns *)
Notation group := (list nat * list routedata)%type.
Definition gpairs (gs : list group) : pairs := flat_map (fun g => combine (fst g) (snd g)) gs.

(** [gs]: successful calls of operators of the list on disjoint route selections. *)
Definition valid (st : lstate) (gs : list group) : Prop :=
  gs <> [] /\ NoDup (concat (map fst gs)) /\ incl (concat (map fst gs)) (st_idxs st) /\
  Forall (fun g => exists op delta, In op ls_ops /\ length (fst g) = op_count (sem op) /\
            call_op (sem op) st first (fst g) = Some (snd g, delta)) gs.

Definition eligible (o : ls_op) (ris : list nat) : bool := op_sensitive o || is_sorted ris.

Definition best_ok (st : lstate) (best : option (pairs * Z)) : Prop :=
  match best with Some (prs, _) => exists gs, prs = gpairs gs /\ valid st gs | None => True end.

Lemma search_spec rs st op : inv rs st -> In op ls_ops ->
  let '(best, noimp) := search_op eps it sem first st op in
  best_ok st best /\
  Forall (fun ris => call_op (sem op) st first ris = None) noimp /\
  (best = None -> forall ris, In ris (kperms (op_count (sem op)) (st_idxs st)) -> eligible (sem op) ris = true ->
     In (ris, op) (st_opt st) \/ In ris noimp).
Proof.
  intros HI Hop. set (o := sem op).
  set (combos := kperms (op_count o) (st_idxs st)).
  set (Fin := fun s : option (pairs * Z) * list (list nat) =>
     (exists gs bd, fst s = Some (gpairs gs, bd) /\ valid st gs) /\
     Forall (fun ris => call_op o st first ris = None) (snd s)).
  set (Inv := fun (pre : list (list nat)) (s : option (pairs * Z) * list (list nat)) =>
     (match fst s with
      | Some (prs, _) => exists gs, prs = gpairs gs /\ valid st gs /\ incl (map fst gs) pre
      | None => forall ris, In ris pre -> eligible o ris = true -> In (ris, op) (st_opt st) \/ In ris (snd s)
      end) /\
     Forall (fun ris => call_op o st first ris = None) (snd s)).
  assert (HND : NoDup (st_idxs st)) by exact (inv_nodup _ _ HI).
  assert (Hone : forall ris rds delta, In ris combos -> call_op o st first ris = Some (rds, delta) -> valid st [(ris, rds)]).
  { intros ris rds delta Hin Hc. unfold combos in Hin. apply in_kperms in Hin; [|exact HND]. destruct Hin as (L1 & L2 & L3).
    split; [discriminate|]. cbn [map fst concat]. rewrite app_nil_r. split; [exact L2|]. split; [exact L3|].
    constructor; [|constructor]. cbn [fst snd]. exists op, delta. now repeat split. }
  pose proof (for_break_at (fun ris s =>
         if negb (op_sensitive o) && negb (is_sorted ris) then (s, false)
         else if memoized st ris op then (s, false)
         else
           match call_op o st first ris with
           | None => ((fst s, snd s ++ [ris]), false)
           | Some (rds, delta) => ((record_result eps it o ris rds delta (fst s), snd s), first)
           end) Inv Fin combos (None, [])) as HB.
  lapply HB; [clear HB; intros HB|split; [intros ris []|constructor]].
  lapply HB; [clear HB; intros HB|].
  2: { intros pre ris post [best noimp] Hcomb [HI1 HI2]. cbn [fst snd] in *.
    assert (Hin : In ris combos) by (rewrite Hcomb; apply in_or_app; right; now left).
    assert (Hweak : forall best' noimp', (forall x, In x noimp -> In x noimp') ->
       best' = best -> (eligible o ris = true -> In (ris, op) (st_opt st) \/ In ris noimp') ->
       match best' with
       | Some (prs, _) => exists gs, prs = gpairs gs /\ valid st gs /\ incl (map fst gs) (pre ++ [ris])
       | None => forall r, In r (pre ++ [ris]) -> eligible o r = true -> In (r, op) (st_opt st) \/ In r noimp'
       end).
    { intros best' noimp' Hsub -> Hr. destruct best as [[prs bd]|].
      - destruct HI1 as (gs & E1 & E2 & E3). exists gs. split; [exact E1|]. split; [exact E2|].
        intros x Hx. apply in_or_app. left. now apply E3.
      - intros r Hr' He. apply in_app_or in Hr'. destruct Hr' as [Hr'|[<-|[]]].
        + destruct (HI1 r Hr' He) as [?|?]; [now left|right; now apply Hsub].
        + now apply Hr. }
    destruct (negb (op_sensitive o) && negb (is_sorted ris)) eqn:Eel.
    { split; [|exact HI2]. cbn [fst snd]. apply Hweak; [easy|reflexivity|].
      unfold eligible. intros He. destruct (op_sensitive o); [discriminate|]. cbn in *. rewrite He in Eel. discriminate. }
    destruct (memoized st ris op) eqn:Em.
    { split; [|exact HI2]. cbn [fst snd]. apply Hweak; [easy|reflexivity|]. intros _. left.
      unfold memoized in Em. apply existsb_exists in Em. destruct Em as ([ris' op'] & H1 & H2). cbn [fst snd] in H2.
      apply andb_true_iff in H2. destruct H2 as [H2 H3]. apply natlist_eqb_spec in H2. apply Nat.eqb_eq in H3. now subst. }
    destruct (call_op o st first ris) as [[rds delta]|] eqn:Ec.
    - (* a result *)
      assert (HR : exists gs bd', record_result eps it o ris rds delta best = Some (gpairs gs, bd') /\ valid st gs /\
                incl (map fst gs) (pre ++ [ris])).
      { pose proof (Hone ris rds delta Hin Ec) as HV.
        assert (Hnew : exists gs bd', Some (combine ris rds, delta) = Some (gpairs gs, bd') /\ valid st gs /\ incl (map fst gs) (pre ++ [ris])).
        { exists [(ris, rds)], delta. split; [unfold gpairs; cbn [flat_map fst snd]; now rewrite app_nil_r|].
          split; [exact HV|]. intros x [<-|[]]. apply in_or_app. right. now left. }
        assert (Hold : forall prs bd, best = Some (prs, bd) ->
                  exists gs bd', Some (prs, bd) = Some (gpairs gs, bd') /\ valid st gs /\ incl (map fst gs) (pre ++ [ris])).
        { intros prs bd E. rewrite E in HI1. destruct HI1 as (gs & E1 & E2 & E3). exists gs, bd. subst prs. split; [reflexivity|].
          split; [exact E2|]. intros x Hx. apply in_or_app. left. now apply E3. }
        unfold record_result. destruct o as [f|k sens f] eqn:Eo.
        - change (0 + delta) with delta.
          destruct (match best with Some (_, bd) => bd <? delta + eps | None => false end && is_iter_best it) eqn:Es.
          + destruct best as [[prs bd]|]; [|discriminate]. now apply (Hold prs bd).
          + destruct best as [[prs bd]|]; [|exact Hnew]. destruct (is_iter_best it); [exact Hnew|].
            destruct HI1 as (gs & -> & (V1 & V2 & V3 & V4) & E3). exists (gs ++ [(ris, rds)]), (bd + delta).
            split; [unfold gpairs; rewrite flat_map_app; cbn [flat_map fst snd]; now rewrite app_nil_r|].
            destruct HV as (_ & W2 & W3 & W4). cbn [map fst concat] in W2, W3. rewrite app_nil_r in W2, W3.
            split.
            * split; [destruct gs; discriminate|]. rewrite map_app, concat_app. cbn [map fst concat]. rewrite app_nil_r.
              split; [|split].
              -- apply NoDup_app_intro; [exact V2|exact W2|]. intros x Hx Hx'.
                 (* one-route selections: distinct combinations are disjoint *)
                 unfold combos in Hcomb, Hin. cbn [op_count] in Hcomb, Hin. rewrite kperms1 in Hcomb, Hin.
                 apply in_map_iff in Hin. destruct Hin as (y & <- & Hy). destruct Hx' as [<-|[]].
                 apply in_concat in Hx. destruct Hx as (ris2 & Hris2 & Hx). apply E3 in Hris2.
                 assert (Hris2' : In ris2 (map (fun x => [x]) (st_idxs st))) by (rewrite Hcomb; apply in_or_app; now left).
                 apply in_map_iff in Hris2'. destruct Hris2' as (z & <- & Hz). destruct Hx as [<-|[]].
                 assert (HN : NoDup (map (fun x : nat => [x]) (st_idxs st))).
                 { apply FinFun.Injective_map_NoDup; [|exact HND]. intros u v E. congruence. }
                 rewrite Hcomb in HN. apply NoDup_remove_2 in HN. apply HN. apply in_or_app. now left.
              -- intros x Hx. apply in_app_or in Hx. destruct Hx; [now apply V3|now apply W3].
              -- apply Forall_app. split; [exact V4|exact W4].
            * rewrite map_app. intros x Hx. apply in_app_or in Hx. apply in_or_app.
              destruct Hx as [Hx|[<-|[]]]; [left; now apply E3|right; now left].
        - destruct best as [[prs bd]|]; [|exact Hnew]. destruct (delta + eps <? bd); [exact Hnew|]. now apply (Hold prs bd). }
      destruct HR as (gs & bd' & ER & HV & HinC).
      assert (X : Inv (pre ++ [ris]) (record_result eps it o ris rds delta best, noimp) /\
                  Fin (record_result eps it o ris rds delta best, noimp)).
      { rewrite ER. split.
        - split; [|exact HI2]. cbn [fst snd]. exists gs. now repeat split; try apply HV.
        - split; [|exact HI2]. exists gs, bd'. cbn [fst]. now split. }
      destruct first; tauto.
    - split; cbn [fst snd].
      + apply Hweak; [intros x Hx; apply in_or_app; now left|reflexivity|]. intros _. right. apply in_or_app. right. now left.
      + apply Forall_app. split; [exact HI2|]. constructor; [exact Ec|constructor]. }
  unfold search_op. fold o. fold combos.
  match type of HB with context [for_break ?l ?f ?s0] =>
    match goal with |- context [for_break ?l' ?f' ?s0'] => change (for_break l' f' s0') with (for_break l f s0) end;
    destruct (for_break l f s0) as [[best noimp] brk] end.
  cbn [fst]. destruct brk.
  - destruct HB as [(gs & bd & E1 & E2) H2]. cbn [fst snd] in *. subst best. split; [|split; [exact H2|discriminate]].
    exists gs. now split.
  - destruct HB as [H1 H2]. cbn [fst snd] in *. split; [|split; [exact H2|]].
    + destruct best as [[prs bd]|]; [|exact I]. destruct H1 as (gs & E1 & E2 & _). exists gs. now split.
    + intros ->. exact H1.
Qed.

Lemma mark_inv rs st op noimp : inv rs st -> In op ls_ops ->
  Forall (fun ris => call_op (sem op) st first ris = None) noimp -> inv rs (mark st op noimp).
Proof.
  intros HI Hop HN. constructor; cbn.
  - exact (inv_rel _ _ HI).
  - exact (inv_nodup _ _ HI).
  - exact (inv_idxs _ _ HI).
  - intros ris op' H ri Hri. apply in_or_app. apply in_app_or in H. destruct H as [H|H].
    + left. exact (inv_c2o _ _ HI ris op' H ri Hri).
    + right. apply in_map_iff in H. destruct H as (ris' & E & H). injection E as -> ->.
      apply in_flat_map. exists ris. split; [exact H|]. apply in_map_iff. now exists ri.
  - intros ris op' H Hop'. apply in_app_or in H. destruct H as [H|H].
    + exact (inv_opt _ _ HI ris op' H Hop').
    + apply in_map_iff in H. destruct H as (ris' & E & H). injection E as -> ->.
      rewrite Forall_forall in HN. exact (HN ris H).
Qed.

Lemma mark_valid st op noimp gs : valid st gs -> valid (mark st op noimp) gs.
Proof. intros H. exact H. Qed.

Lemma valid_rel rs st ris : inv rs st -> (forall i, In i ris -> (i < length rs)%nat) ->
  Forall2 rel (map (nthr rs) ris) (map (route_at st) ris).
Proof.
  intros HI Hlt. induction ris as [|i ris IH]; [constructor|]. cbn [map]. constructor.
  - unfold nthr, route_at. pose proof (inv_rel _ _ HI) as HF. specialize (Hlt i (or_introl eq_refl)).
    clear -HF Hlt. revert i Hlt. induction HF as [|r rd rs rds Hr HF IH]; intros i Hlt; [cbn in Hlt; lia|].
    destruct i as [|i]; [exact Hr|]. cbn. apply IH. cbn in Hlt. lia.
  - apply IH. intros j Hj. apply Hlt. now right.
Qed.

Lemma apply_result_app st p q : apply_result st (p ++ q) = apply_result (apply_result st p) q.
Proof. unfold apply_result. apply fold_left_app. Qed.

Lemma apply_valid gs : forall rs st, distinct_customers rs -> inv rs st -> valid st gs ->
  exists rs2, changes rs rs2 /\ inv rs2 (apply_result st (gpairs gs)).
Proof.
  induction gs as [|[ris rds'] gs IH]; intros rs st HD HI (V1 & V2 & V3 & V4); [contradiction|].
  cbn [map fst concat] in V2, V3. inversion V4 as [|g gs0 (op & delta & Hop & Hlen & Hcall) V4']; subst. cbn [fst snd] in *.
  assert (Hin : incl ris (st_idxs st)) by (intros x Hx; apply V3; apply in_or_app; now left).
  assert (Hlt : forall i, In i ris -> (i < length rs)%nat).
  { intros i Hi. apply (inv_idxs _ _ HI). now apply Hin. }
  assert (HNr : NoDup ris).
  { clear -V2. induction ris as [|x ris IH]; [constructor|]. inversion V2; subst. constructor; [|auto].
    intros H. apply H1. apply in_or_app. now left. }
  pose proof (Hops op Hop first (map (nthr rs) ris) (map (route_at st) ris) rds' delta) as HS.
  rewrite map_length in HS. specialize (HS Hlen (dist_select rs ris HNr Hlt HD) (valid_rel rs st ris HI Hlt) Hcall).
  destruct HS as (rs' & HF & HL & HP & HG & HPr).
  destruct (apply_group_inv ris rs' rds' rs st HI HF HL HNr Hin) as (A1 & A2 & A3 & A4).
  assert (HS1 : changes rs (upd rs ris rs')).
  { constructor; try assumption. intros i Hi. apply (inv_idxs _ _ HI). now apply Hin. }
  assert (Egp : gpairs ((ris, rds') :: gs) = combine ris rds' ++ gpairs gs) by reflexivity.
  rewrite Egp, apply_result_app. destruct gs as [|g gs].
  - cbn [gpairs flat_map]. exists (upd rs ris rs'). now split.
  - assert (HV : valid (apply_result st (combine ris rds')) (g :: gs)).
    { assert (Hdis : forall j, In j (concat (map fst (g :: gs))) -> ~ In j ris).
      { intros j Hj Hj'. clear -V2 Hj Hj'. exact (NoDup_app_in _ _ j V2 Hj' Hj). }
      split; [discriminate|]. split; [exact (NoDup_app_r _ _ V2)|]. split.
      - intros j Hj. apply A4; [apply V3; apply in_or_app; now right|now apply Hdis].
      - apply Forall_forall. intros g' Hg'. rewrite Forall_forall in V4'.
        destruct (V4' g' Hg') as (op' & delta' & Hop' & Hlen' & Hcall'). exists op', delta'.
        split; [exact Hop'|]. split; [exact Hlen'|]. rewrite <- Hcall'. apply call_ext. intros j Hj.
        assert (Hj' : In j (concat (map fst (g :: gs)))).
        { apply in_concat. exists (fst g'). split; [now apply in_map|exact Hj]. }
        apply A4; [apply V3; apply in_or_app; now right|now apply Hdis]. }
    destruct (IH _ _ (dist_perm _ _ (proj1 (proj2 (changes_keep _ _ HS1))) HD) A1 HV) as (rs2 & HS2 & HI2). exists rs2. split; [|exact HI2].
    exact (ch_more _ _ _ HS1 HS2).
Qed.

(** ** The loops: partial correctness *)
Definition all_memo (st : lstate) (ops : list nat) : Prop :=
  forall op ris, In op ops -> In ris (kperms (op_count (sem op)) (st_idxs st)) -> eligible (sem op) ris = true ->
    In (ris, op) (st_opt st).

Lemma ops_loop_spec fuel : forall todo done rs st improving best_it st' improving' best_it',
  done ++ todo = ls_ops -> distinct_customers rs -> inv rs st -> best_ok st best_it ->
  (it <> IterBest -> best_it = None) ->
  (improving = false -> best_it = None -> all_memo st done) ->
  ops_loop eps it sem first fuel todo st improving best_it = Some (st', improving', best_it') ->
  exists rs', inv rs' st' /\ reach rs rs' /\ best_ok st' best_it' /\
    (it <> IterBest -> best_it' = None) /\
    (improving' = false -> improving = false) /\
    (improving' = true -> improving = true \/ changes rs rs') /\
    (improving' = false -> best_it' = None -> all_memo st' ls_ops).
Proof.
  induction fuel as [|fuel IH]; intros todo done rs st improving best_it st' improving' best_it' Hd HD HI HB Hbi HM H;
    (destruct todo as [|op rest]; cbn [ops_loop] in H;
     [injection H as <- <- <-; rewrite app_nil_r in Hd; subst done;
      exists rs; split; [exact HI|]; split; [now left|]; tauto|]); [discriminate|].
  assert (Hop : In op ls_ops) by (rewrite <- Hd; apply in_or_app; right; now left).
  pose proof (search_spec rs st op HI Hop) as HS.
  destruct (search_op eps it sem first st op) as [best noimp]. destruct HS as (S1 & S2 & S3).
  pose proof (mark_inv rs st op noimp HI Hop S2) as HI1.
  assert (Hd' : (done ++ [op]) ++ rest = ls_ops) by (now rewrite <- app_assoc).
  assert (Hmm : forall ops, all_memo st ops -> all_memo (mark st op noimp) ops).
  { intros ops HA op' ris Ho Hr He. cbn. apply in_or_app. left. now apply HA. }
  destruct best as [[prs delta]|].
  - destruct S1 as (gs & -> & HV). destruct it eqn:Eit.
    + (* first *) injection H as <- <- <-.
      destruct (apply_valid gs rs (mark st op noimp) HD HI1 HV) as (rs2 & HS2 & HI2).
      exists rs2. split; [exact HI2|]. split; [right; exact HS2|].
      assert (Hb0 : best_it = None) by (apply Hbi; discriminate). subst best_it.
      split; [exact I|]. split; [reflexivity|]. split; [discriminate|]. split; [right; exact HS2|discriminate].
    + (* best *) eapply IH in H; [exact H|exact Hd'|exact HD|exact HI1| | |].
      * destruct best_it as [[pb bd]|]; [destruct (delta + eps <? bd)|]; cbn; [now exists gs|exact HB|now exists gs].
      * intros Hx. contradiction.
      * intros Him Hb. exfalso. destruct best_it as [[pb bd]|]; [destruct (delta + eps <? bd)|]; discriminate.
    + (* all *)
      destruct (apply_valid gs rs (mark st op noimp) HD HI1 HV) as (rs2 & HS2 & HI2).
      assert (Hb0 : best_it = None) by (apply Hbi; discriminate). subst best_it.
      eapply IH in H; [|exact Hd'|exact (dist_perm _ _ (proj1 (proj2 (changes_keep _ _ HS2))) HD)|exact HI2|exact I|exact Hbi|discriminate].
      destruct H as (rs' & K1 & K2 & K3 & K4 & K5 & K5' & K6). exists rs'. split; [exact K1|]. split.
      * apply (reach_trans rs rs2); [right; exact HS2|exact K2].
      * split; [exact K3|]. split; [exact K4|]. split; [|split; [|exact K6]]; intros E.
        -- specialize (K5 E). discriminate.
        -- right. destruct K2 as [->|K2]; [exact HS2|exact (ch_more _ _ _ HS2 K2)].
    + (* repeated *)
      destruct (apply_valid gs rs (mark st op noimp) HD HI1 HV) as (rs2 & HS2 & HI2).
      assert (Hb0 : best_it = None) by (apply Hbi; discriminate). subst best_it.
      eapply IH in H; [|exact Hd|exact (dist_perm _ _ (proj1 (proj2 (changes_keep _ _ HS2))) HD)|exact HI2|exact I|exact Hbi|discriminate].
      destruct H as (rs' & K1 & K2 & K3 & K4 & K5 & K5' & K6). exists rs'. split; [exact K1|]. split.
      * apply (reach_trans rs rs2); [right; exact HS2|exact K2].
      * split; [exact K3|]. split; [exact K4|]. split; [|split; [|exact K6]]; intros E.
        -- specialize (K5 E). discriminate.
        -- right. destruct K2 as [->|K2]; [exact HS2|exact (ch_more _ _ _ HS2 K2)].
  - eapply IH in H; [exact H|exact Hd'|exact HD|exact HI1| |exact Hbi|].
    + destruct best_it as [[pb bd]|]; [exact HB|exact I].
    + intros Him Hb op' ris Ho Hr He. apply in_app_or in Ho. destruct Ho as [Ho|[<-|[]]].
      * now apply (Hmm done (HM Him Hb)).
      * cbn in Hr |- *. apply in_or_app. destruct (S3 eq_refl ris Hr He) as [Hm|Hm]; [now left|right].
        apply in_map_iff. now exists ris.
Qed.

Lemma iter_loop_spec max fuel : forall n rs st st',
  distinct_customers rs -> inv rs st -> iter_loop eps it sem first ls_ops max fuel n st = Some st' ->
  exists rs', inv rs' st' /\ reach rs rs' /\
    ((max = None \/ max = Some 0%nat) -> all_memo st' ls_ops).
Proof.
  induction fuel as [|fuel IH]; intros n rs st st' HD HI H; cbn [iter_loop] in H; [discriminate|].
  destruct (ops_loop eps it sem first fuel ls_ops st false None) as [[[st1 improving1] best_it]|] eqn:E; [|discriminate].
  eapply (ops_loop_spec fuel ls_ops []) in E; [|reflexivity|exact HD|exact HI|exact I|reflexivity|intros _ _ op ris []].
  destruct E as (rs1 & HI1 & HR1 & HB1 & HN1 & _ & _ & HA1).
  set (p := match it, best_it with IterBest, Some (prs, _) => (apply_result st1 prs, true) | _, _ => (st1, improving1) end) in H.
  assert (HP : exists rs2, inv rs2 (fst p) /\ reach rs rs2 /\ (snd p = false -> all_memo (fst p) ls_ops)).
  { assert (Hstay : p = (st1, improving1) -> (it = IterBest -> best_it = None) ->
        exists rs2, inv rs2 (fst p) /\ reach rs rs2 /\ (snd p = false -> all_memo (fst p) ls_ops)).
    { intros Ep Hx. rewrite Ep. cbn [fst snd]. exists rs1. split; [exact HI1|]. split; [exact HR1|]. intros Ei. apply HA1; [exact Ei|].
      destruct it; try (apply HN1; discriminate). now apply Hx. }
    unfold p in *. destruct it eqn:Eit; try (apply Hstay; [reflexivity|discriminate]).
    destruct best_it as [[prs bd]|]; [|apply Hstay; reflexivity].
    cbn [fst snd]. destruct HB1 as (gs & -> & HV). destruct (apply_valid gs rs1 st1 (dist_reach _ _ HR1 HD) HI1 HV) as (rs2 & HS2 & HI2).
    exists rs2. split; [exact HI2|]. split; [|discriminate].
    apply (reach_trans rs rs1 rs2 HR1). right. exact HS2. }
  destruct p as [st2 improving]. cbn [fst snd] in HP. destruct HP as (rs2 & HI2 & HR2 & HA2).
  destruct (match max with Some (S m) => (S m <=? S n)%nat | _ => false end) eqn:Est.
  - injection H as <-. exists rs2. split; [exact HI2|]. split; [exact HR2|].
    intros [->| ->]; discriminate.
  - destruct improving.
    + destruct (IH _ _ _ _ (dist_reach _ _ HR2 HD) HI2 H) as (rs' & K1 & K2 & K3). exists rs'. split; [exact K1|]. split; [|exact K3].
      now apply (reach_trans rs rs2).
    + injection H as <-. exists rs2. split; [exact HI2|]. split; [exact HR2|]. intros _. now apply HA2.
Qed.

(** ** The loops: termination *)
Section Termination.
Variables (D : matrix) (K : Z) (cs : list nat) (R : nat).
Hypothesis Hprog : forall rs rs', prog rs rs' -> cheaper_or_fewer D rs rs'.
Hypothesis Hcs : NoDup cs /\ customers_only cs.
Hypothesis HK : forall rs, Permutation (concat rs) cs -> length rs = R -> 0 <= routes_cost D rs + K.

Definition ne1 (r : list nat) : Z := match r with [] => 0 | _ => 1 end.
Definition ne (rs : list (list nat)) : Z := sumZ (map ne1 rs).
Lemma ne_nonneg rs : 0 <= ne rs.
Proof.
  unfold ne. induction rs as [|r rs IH]; [cbn; lia|]. cbn [map].
  change (sumZ (ne1 r :: map ne1 rs)) with (ne1 r + sumZ (map ne1 rs)). destruct r; cbn [ne1]; lia.
Qed.
Lemma ne_bound rs : ne rs <= Z.of_nat (length rs) /\ (In [] rs -> ne rs < Z.of_nat (length rs)).
Proof.
  unfold ne. induction rs as [|r rs [IH1 IH2]]; [cbn; split; [lia|easy]|]. cbn [map length].
  change (sumZ (ne1 r :: map ne1 rs)) with (ne1 r + sumZ (map ne1 rs)).
  split; [destruct r; cbn [ne1]; lia|]. intros [->|H]; [cbn [ne1]; lia|]. specialize (IH2 H). destruct r; cbn [ne1]; lia.
Qed.
Lemma ne_full (rs : list (list nat)) : (forall r, In r rs -> r <> []) -> ne rs = Z.of_nat (length rs).
Proof.
  unfold ne. induction rs as [|r rs IH]; intros H; [reflexivity|]. cbn [map length].
  change (sumZ (ne1 r :: map ne1 rs)) with (ne1 r + sumZ (map ne1 rs)). rewrite IH by (intros; apply H; now right).
  destruct r; [exfalso; apply (H []); [now left|reflexivity]|]. cbn [ne1]. lia.
Qed.

Lemma changes_measure rs rs2 : changes rs rs2 ->
  ne rs2 < ne rs \/ (ne rs2 <= ne rs /\ routes_cost D rs2 < routes_cost D rs).
Proof.
  induction 1 as [rs ris rs' HN Hlt HL HP HG HPr Hne|a b c _ IH1 _ IH2]; [|lia].
  assert (E1 : ne (upd rs ris rs') = ne rs - ne (map (nthr rs) ris) + ne rs') by (now apply upd_sum).
  assert (E2 : ne (map (nthr rs) ris) = Z.of_nat (length ris)).
  { rewrite ne_full; [now rewrite map_length|]. intros r Hr. apply in_map_iff in Hr. destruct Hr as (i & <- & Hi). now apply Hne. }
  destruct (ne_bound rs') as [B1 B2]. apply Hprog in HPr. destruct HPr as [Hc|He].
  - right. split; [lia|]. unfold routes_cost in *. rewrite upd_sum by assumption.
    unfold cheaper, routes_cost in Hc. lia.
  - left. specialize (B2 He). lia.
Qed.

Definition below (rs2 rs : list (list nat)) : Prop :=
  (Z.to_nat (ne rs2) < Z.to_nat (ne rs))%nat \/
  (Z.to_nat (ne rs2) = Z.to_nat (ne rs) /\ (Z.to_nat (routes_cost D rs2 + K) < Z.to_nat (routes_cost D rs + K))%nat).
Lemma below_wf : well_founded below.
Proof.
  assert (G : forall n m rs, Z.to_nat (ne rs) = n -> Z.to_nat (routes_cost D rs + K) = m -> Acc below rs).
  { induction n as [n IHn] using (well_founded_induction lt_wf). induction m as [m IHm] using (well_founded_induction lt_wf).
    intros rs En Em. constructor. intros rs2 [H|[H1 H2]].
    - apply (IHn (Z.to_nat (ne rs2)) ltac:(lia) (Z.to_nat (routes_cost D rs2 + K))); reflexivity.
    - apply (IHm (Z.to_nat (routes_cost D rs2 + K)) ltac:(lia)); [lia|reflexivity]. }
  intros rs. now apply (G (Z.to_nat (ne rs)) (Z.to_nat (routes_cost D rs + K))).
Qed.

Definition sized (rs : list (list nat)) : Prop := Permutation (concat rs) cs /\ length rs = R.
Lemma sized_dist rs : sized rs -> distinct_customers rs.
Proof.
  intros [HP _]. assert (HC : distinct_customers [cs]) by (unfold distinct_customers; cbn; now rewrite app_nil_r).
  apply (dist_perm [cs]); [|exact HC]. cbn. now rewrite app_nil_r.
Qed.
Lemma changes_below rs rs2 : sized rs -> changes rs rs2 -> sized rs2 /\ below rs2 rs.
Proof.
  intros [H1 H2] HC. pose proof (changes_measure _ _ HC) as HM. apply changes_keep in HC. destruct HC as (A1 & A2 & _).
  assert (S2 : sized rs2) by (split; [now rewrite A2|lia]). split; [exact S2|].
  pose proof (HK rs H1 H2). pose proof (HK rs2 (proj1 S2) (proj2 S2)). pose proof (ne_nonneg rs). pose proof (ne_nonneg rs2).
  unfold below. lia.
Qed.

Lemma ops_loop_total : forall rs, sized rs -> forall todo done st improving best_it,
  done ++ todo = ls_ops -> inv rs st ->
  exists res fuel0, forall fuel, (fuel0 <= fuel)%nat -> ops_loop eps it sem first fuel todo st improving best_it = Some res.
Proof.
  intros rs. induction rs as [rs IH] using (well_founded_induction below_wf).
  intros HS. pose proof (sized_dist rs HS) as HD. intros todo. induction todo as [|op rest IHt]; intros done st improving best_it Hd HI.
  - eexists. exists 0%nat. intros fuel _. destruct fuel; reflexivity.
  - assert (Hop : In op ls_ops) by (rewrite <- Hd; apply in_or_app; right; now left).
    assert (Hd' : (done ++ [op]) ++ rest = ls_ops) by (now rewrite <- app_assoc).
    pose proof (search_spec rs st op HI Hop) as HSp.
    destruct (search_op eps it sem first st op) as [best noimp] eqn:Es. destruct HSp as (S1 & S2 & _).
    pose proof (mark_inv rs st op noimp HI Hop S2) as HI1.
    assert (Hstep : forall res fuel0,
       (forall fuel, (fuel0 <= fuel)%nat -> match best with
          | None => ops_loop eps it sem first fuel rest (mark st op noimp) improving best_it
          | Some (prs, delta) =>
              match it with
              | IterBest => ops_loop eps it sem first fuel rest (mark st op noimp) improving
                              (if match best_it with None => true | Some (_, bd) => delta + eps <? bd end
                               then Some (prs, delta) else best_it)
              | IterFirst => Some (apply_result (mark st op noimp) prs, true, best_it)
              | IterRepeated => ops_loop eps it sem first fuel (op :: rest) (apply_result (mark st op noimp) prs) true best_it
              | IterAll => ops_loop eps it sem first fuel rest (apply_result (mark st op noimp) prs) true best_it
              end
          end = Some res) ->
       exists res fuel0, forall fuel, (fuel0 <= fuel)%nat -> ops_loop eps it sem first fuel (op :: rest) st improving best_it = Some res).
    { intros res fuel0 HR. exists res, (S fuel0). intros fuel Hf. destruct fuel as [|fuel]; [lia|].
      specialize (HR fuel ltac:(lia)). cbn [ops_loop]. rewrite Es. exact HR. }
    destruct best as [[prs delta]|].
    + destruct S1 as (gs & -> & HV). destruct (apply_valid gs rs (mark st op noimp) HD HI1 HV) as (rs2 & HC & HI2).
      destruct (changes_below _ _ HS HC) as [HS2 HB2].
      destruct it eqn:Eit.
      * apply (Hstep (apply_result (mark st op noimp) (gpairs gs), true, best_it) 0%nat). reflexivity.
      * destruct (IHt _ (mark st op noimp) improving
                 (if match best_it with None => true | Some (_, bd) => delta + eps <? bd end
                  then Some (gpairs gs, delta) else best_it) Hd' HI1) as (res & fuel0 & HR). now apply (Hstep res fuel0).
      * destruct (IH rs2 HB2 HS2 rest _ (apply_result (mark st op noimp) (gpairs gs)) true best_it Hd' HI2) as (res & fuel0 & HR).
        now apply (Hstep res fuel0).
      * destruct (IH rs2 HB2 HS2 (op :: rest) _ (apply_result (mark st op noimp) (gpairs gs)) true best_it Hd HI2) as (res & fuel0 & HR).
        now apply (Hstep res fuel0).
    + destruct (IHt _ (mark st op noimp) improving best_it Hd' HI1) as (res & fuel0 & HR). now apply (Hstep res fuel0).
Qed.

Lemma iter_loop_total max : forall rs, sized rs -> forall n st, inv rs st ->
  exists st' fuel0, forall fuel, (fuel0 <= fuel)%nat -> iter_loop eps it sem first ls_ops max fuel n st = Some st'.
Proof.
  intros rs. induction rs as [rs IH] using (well_founded_induction below_wf). intros HS n st HI. pose proof (sized_dist rs HS) as HD.
  destruct (ops_loop_total rs HS ls_ops [] st false None eq_refl HI) as (res & fuel1 & H1).
  destruct res as [[st1 improving1] best_it].
  pose proof (H1 fuel1 (le_n _)) as E1.
  eapply (ops_loop_spec fuel1 ls_ops []) in E1; [|reflexivity|exact HD|exact HI|exact I|reflexivity|intros _ _ op ris []].
  destruct E1 as (rs1 & HI1 & HR1 & HB1 & HN1 & _ & HI1' & _).
  set (p := match it, best_it with IterBest, Some (prs, _) => (apply_result st1 prs, true) | _, _ => (st1, improving1) end).
  assert (HP : exists rs2, inv rs2 (fst p) /\ (snd p = true -> changes rs rs2)).
  { assert (Hstay : p = (st1, improving1) -> exists rs2, inv rs2 (fst p) /\ (snd p = true -> changes rs rs2)).
    { intros ->. exists rs1. cbn [fst snd]. split; [exact HI1|]. intros E. destruct (HI1' E) as [?|?]; [discriminate|assumption]. }
    unfold p in *. destruct it; try (apply Hstay; reflexivity). destruct best_it as [[prs bd]|]; [|apply Hstay; reflexivity].
    cbn [fst snd]. destruct HB1 as (gs & -> & HV). destruct (apply_valid gs rs1 st1 (dist_reach _ _ HR1 HD) HI1 HV) as (rs2 & HS2 & HI2).
    exists rs2. split; [exact HI2|]. intros _. destruct HR1 as [->|HR1]; [exact HS2|exact (ch_more _ _ _ HR1 HS2)]. }
  assert (Hbody : forall fuel, (S fuel1 <= fuel)%nat -> exists f', fuel = S f' /\ iter_loop eps it sem first ls_ops max fuel n st =
     (if match max with Some (S m) => (S m <=? S n)%nat | _ => false end then Some (fst p)
      else if snd p then iter_loop eps it sem first ls_ops max f' (S n) (fst p) else Some (fst p))).
  { intros fuel Hf. destruct fuel as [|f']; [lia|]. exists f'. split; [reflexivity|]. cbn [iter_loop].
    rewrite (H1 f' ltac:(lia)). fold p. destruct p as [st2 improving]. reflexivity. }
  destruct p as [st2 improving]. cbn [fst snd] in *. destruct HP as (rs2 & HI2 & HC2).
  destruct (match max with Some (S m) => (S m <=? S n)%nat | _ => false end).
  - exists st2, (S fuel1). intros fuel Hf. destruct (Hbody fuel Hf) as (f' & _ & E). exact E.
  - destruct improving.
    + destruct (changes_below _ _ HS (HC2 eq_refl)) as [HS2 HB2].
      destruct (IH rs2 HB2 HS2 (S n) st2 HI2) as (st' & fuel2 & H2).
      exists st', (S (Nat.max fuel1 fuel2)). intros fuel Hf. destruct (Hbody fuel ltac:(lia)) as (f' & -> & E).
      rewrite E. apply H2. lia.
    + exists st2, (S fuel1). intros fuel Hf. destruct (Hbody fuel Hf) as (f' & _ & E). exact E.
Qed.
End Termination.
End Driver.
