(** * Splitting a circle by shortest paths: the loop of rfcs.py finds an optimal split

    Arcs go from an index on the circle over [l] customers.  Their costs do not fall when they are
    prolonged. *)
From Verif Require Import Spec PyBase M_util M_rfcs.
Require Import ZifyBool ZifyNat Lia.

Lemma fold_seq_ind {A} (P : nat -> A -> Prop) (f : A -> nat -> A) n m :
  P 0%nat m -> (forall x m, (x < n)%nat -> P x m -> P (S x) (f m x)) -> P n (fold_left f (range 0 n) m).
Proof.
  intros H0 Hs. unfold range. rewrite Nat.sub_0_r.
  assert (G : forall k, (k <= n)%nat -> P k (fold_left f (seq 0 k) m)).
  { induction k as [|k IH]; intros Hk; [exact H0|]. rewrite seq_S, fold_left_app. cbn. apply Hs; [lia|]. apply IH. lia. }
  apply G. lia.
Qed.

Ltac ltbs := repeat match goal with |- context [Nat.ltb ?x ?y] => destruct (Nat.ltb_spec x y) end; try lia.

Lemma upd2_same {A} (g : nat -> nat -> A) i j x : upd2 g i j x i j = x.
Proof. unfold upd2. now rewrite !Nat.eqb_refl. Qed.
Lemma upd2_other {A} (g : nat -> nat -> A) i j x p q : (p <> i \/ q <> j) -> upd2 g i j x p q = g p q.
Proof. intros H. unfold upd2. destruct (Nat.eqb_spec p i), (Nat.eqb_spec q j); subst; try reflexivity. lia. Qed.

Section Circle.
Variable n : nat.
Definition len (u v : nat) : nat := if (u <? v)%nat then (v - u)%nat else (v + n - u)%nat.
Definition adv (u l : nat) : nat := if (u + l <? n)%nat then (u + l)%nat else (u + l - n)%nat.
Lemma adv_len u v : (u < n)%nat -> (v < n)%nat -> adv u (len u v) = v.
Proof. intros. unfold adv, len. ltbs. Qed.
Lemma adv_lt u l : (u < n)%nat -> (l <= n)%nat -> (adv u l < n)%nat.
Proof. intros. unfold adv. destruct (Nat.ltb_spec (u + l) n); lia. Qed.
Lemma len_adv u l : (u < n)%nat -> (1 <= l <= n)%nat -> len u (adv u l) = l.
Proof. intros. unfold adv, len. ltbs. Qed.
Lemma len_bounds u v : (u < n)%nat -> (v < n)%nat -> (1 <= len u v <= n)%nat.
Proof. intros. unfold len. destruct (Nat.ltb_spec u v); lia. Qed.

Variable a : nat -> nat -> option Z.
Hypothesis Hn : (2 <= n)%nat.
Hypothesis Hdom : forall u l x, a u l = Some x -> (u < n)%nat /\ (1 <= l < n)%nat.
Hypothesis Hmono : forall u l x l', a u l = Some x -> (1 <= l' <= l)%nat -> exists x', a u l' = Some x' /\ 0 <= x' <= x.

Definition c (u v : nat) : option Z := if (v <? n)%nat then a u (len u v) else None.

Lemma arc_nonneg u l x : a u l = Some x -> 0 <= x.
Proof. intros H. destruct (Hdom _ _ _ H) as [_ Hl]. destruct (Hmono _ _ _ l H ltac:(lia)) as (x' & E & Hx). congruence || (rewrite H in E; injection E as ->; lia). Qed.
Lemma c_dom u v x : c u v = Some x -> (u < n)%nat /\ (v < n)%nat /\ u <> v /\ (1 <= len u v < n)%nat /\ a u (len u v) = Some x.
Proof.
  unfold c. destruct (Nat.ltb_spec v n) as [Hv|]; [|discriminate]. intros H. destruct (Hdom _ _ _ H) as [H1 H2]. repeat split; auto; try lia.
  unfold len in *. destruct (Nat.ltb_spec u v); lia.
Qed.
Lemma c_adv u l : (u < n)%nat -> (1 <= l < n)%nat -> c u (adv u l) = a u l.
Proof. intros Hu Hl. unfold c. rewrite len_adv by lia. assert (H := adv_lt u l Hu ltac:(lia)). destruct (Nat.ltb_spec (adv u l) n); [reflexivity|lia]. Qed.

(** ** Walks *)
Inductive walk : nat -> list nat -> nat -> Z -> Prop :=
| walk_nil u : (u < n)%nat -> walk u [] u 0
| walk_cons u l x ls v w : a u l = Some x -> walk (adv u l) ls v w -> walk u (l :: ls) v (x + w).

Lemma walk_nonneg u ls v w : walk u ls v w -> 0 <= w.
Proof. induction 1 as [|u l x ls v w H _ IH]; [lia|]. apply arc_nonneg in H. lia. Qed.
Lemma walk_dom u ls v w : walk u ls v w -> (u < n)%nat /\ (v < n)%nat.
Proof. induction 1 as [|u l x ls v w H _ IH]; [lia|]. apply Hdom in H. lia. Qed.
Lemma walk_app u ls v w ls' v' w' : walk u ls v w -> walk v ls' v' w' -> walk u (ls ++ ls') v' (w + w').
Proof. induction 1 as [|u l x ls v w H _ IH]; intros H2; [exact H2|]. cbn. rewrite <- Z.add_assoc. econstructor; eauto. Qed.
Lemma walk_one u v x : c u v = Some x -> walk u [len u v] v x.
Proof. intros H. apply c_dom in H as (Hu & Hv & _ & _ & H). replace x with (x + 0) by lia. econstructor; [exact H|]. rewrite adv_len by assumption. now constructor. Qed.

Notation sum := list_sum.
Lemma sum_cons l ls : sum (l :: ls) = (l + sum ls)%nat.
Proof. reflexivity. Qed.
Lemma sum_nil : sum [] = 0%nat.
Proof. reflexivity. Qed.

(** A walk may be cut short. *)
Lemma truncate u ls v w t : walk u ls v w -> (t <= sum ls)%nat ->
  exists ls' v' w', walk u ls' v' w' /\ sum ls' = t /\ w' <= w.
Proof.
  intros H. revert t. induction H as [u Hu|u l x ls v w Hx Hw IH]; intros t Ht.
  - rewrite sum_nil in Ht. exists [], u, 0. split; [now constructor|]. split; [rewrite sum_nil; lia|lia].
  - rewrite sum_cons in Ht. assert (Hnn := walk_nonneg _ _ _ _ Hw). destruct (Hdom _ _ _ Hx) as [Hu Hl]. destruct (Nat.eq_dec t 0) as [->|Ht0].
    + exists [], u, 0. split; [now constructor|]. split; [reflexivity|]. apply arc_nonneg in Hx. lia.
    + destruct (Nat.le_gt_cases l t) as [Hlt|Hlt].
      * destruct (IH (t - l)%nat ltac:(lia)) as (ls' & v' & w' & H1 & H2 & H3). exists (l :: ls'), v', (x + w'). split; [econstructor; eauto|]. split; [rewrite sum_cons; lia|lia].
      * destruct (Hmono _ _ _ t Hx ltac:(lia)) as (x' & E & Hx'). exists [t], (adv u t), (x' + 0). split; [econstructor; [exact E|]; constructor; apply adv_lt; lia|]. split; [rewrite sum_cons, sum_nil; lia|lia].
Qed.

(** Where a walk ends. *)
Lemma walk_end u ls v w : walk u ls v w -> exists m, (u + sum ls = v + m * n)%nat.
Proof.
  induction 1 as [u Hu|u l x ls v w Hx Hw [m IH]]; [exists 0%nat; rewrite sum_nil; lia|]. destruct (Hdom _ _ _ Hx). rewrite sum_cons.
  unfold adv in IH. destruct (Nat.ltb_spec (u + l) n); [exists m; lia|exists (S m); lia].
Qed.
Lemma walk_pos u ls v w : walk u ls v w -> ls <> [] -> (1 <= sum ls)%nat.
Proof. intros H Hne. inversion H as [|? l x ls' ? w' Hx Hw]; subst; [easy|]. apply Hdom in Hx. rewrite sum_cons. lia. Qed.
Lemma end_unique u v v' m m' : (v < n)%nat -> (v' < n)%nat -> (u = v + m * n)%nat -> (u = v' + m' * n)%nat -> v = v'.
Proof.
  intros H H' E E'. assert (E1 : (u mod n = v)%nat) by (rewrite E, Nat.mod_add, Nat.mod_small; lia).
  assert (E2 : (u mod n = v')%nat) by (rewrite E', Nat.mod_add, Nat.mod_small; lia). congruence.
Qed.
Lemma truncate_to u ls v w : walk u ls v w -> ls <> [] -> exists ls' w', walk u ls' v w' /\ sum ls' = len u v /\ w' <= w.
Proof.
  intros H Hne. destruct (walk_dom _ _ _ _ H) as [Hu Hv]. destruct (walk_end _ _ _ _ H) as [m Hm]. assert (Hp := walk_pos _ _ _ _ H Hne).
  assert (Hle : (len u v <= sum ls)%nat).
  { unfold len. destruct (Nat.ltb_spec u v); [destruct m; nia|]. destruct m; [lia|nia]. }
  destruct (truncate _ _ _ _ _ H Hle) as (ls' & v' & w' & H1 & H2 & H3). exists ls', w'. split; [|auto].
  destruct (walk_end _ _ _ _ H1) as [m' Hm']. destruct (walk_dom _ _ _ _ H1) as [_ Hv'].
  replace v with v'; [exact H1|]. symmetry. unfold len in H2. destruct (Nat.ltb_spec u v); eapply (end_unique (u + sum ls') v v' _ m'); try assumption.
  - rewrite H2. instantiate (1 := 0%nat). lia.
  - rewrite H2. instantiate (1 := 1%nat). lia.
Qed.

(** ** The loop *)
Definition le_opt (o : option Z) (z : Z) : Prop := exists s, o = Some s /\ s <= z.

Definition A2 (m : fw) : Prop := forall i j s, fst m i j = Some s ->
  (i < n)%nat /\ (j < n)%nat /\
  exists x ls w, c i (snd m i j) = Some x /\ (len i (snd m i j) <= len i j)%nat /\ walk (snd m i j) ls j w /\ x + w <= s.
Definition A1 (m : fw) : Prop := forall i j x, c i j = Some x -> le_opt (fst m i j) x.
Definition DD (m : fw) : Prop := forall i j s, fst m i j = Some s -> (j <= i)%nat -> (i < snd m i j)%nat ->
  exists x h k ls w, c i (snd m i j) = Some x /\ (k <= j)%nat /\ c (snd m i j) k = Some h /\ walk k ls j w /\ x + h + w <= s.
(** What is as it was at first: the rows behind [i] and the rest of row [i]. *)
Definition EE (i j : nat) (m : fw) : Prop := forall p q, ((i < p)%nat \/ (p = i /\ (j < q)%nat)) ->
  fst m p q = c p q /\ (c p q <> None -> snd m p q = q).
(** [t p q k]: the entry (p,q) has been compared with the path over [k]. *)
Definition BB (t : nat -> nat -> nat -> Prop) (m : fw) : Prop := forall p q k s h, t p q k -> (k < q)%nat ->
  fst m p k = Some s -> c k q = Some h -> le_opt (fst m p q) (s + h).
Definition CC (t : nat -> nat -> nat -> Prop) (m : fw) : Prop := forall p q k s h, t p q k -> (k < p)%nat ->
  c p k = Some h -> fst m k q = Some s -> le_opt (fst m p q) (h + s).

Definition upto (i j k : nat) : nat -> nat -> nat -> Prop :=
  fun p q r => (p < i)%nat \/ (p = i /\ ((q < j)%nat \/ (q = j /\ (r < k)%nat))).

(** Entries (i,j) with the first [k] done. *)
Definition Inv (i j k : nat) (m : fw) : Prop := A1 m /\ A2 m /\ DD m /\ EE i j m /\ BB (upto i j k) m /\ CC (upto i j k) m.

Lemma A2_nonneg m i j s : A2 m -> fst m i j = Some s -> 0 <= s.
Proof.
  intros H E. destruct (H _ _ _ E) as (_ & _ & x & ls & w & H1 & _ & H2 & H3). apply walk_nonneg in H2. apply c_dom in H1 as (_ & _ & _ & _ & H1). apply arc_nonneg in H1. lia.
Qed.
Lemma A2_walk m i j s : A2 m -> fst m i j = Some s -> exists ls w, walk i ls j w /\ ls <> [] /\ w <= s.
Proof.
  intros H E. destruct (H _ _ _ E) as (_ & _ & x & ls & w & H1 & _ & H2 & H3). exists ([len i (snd m i j)] ++ ls), (x + w). split; [|split; [discriminate|exact H3]].
  eapply walk_app; [apply walk_one; exact H1|exact H2].
Qed.


Lemma le_opt_trans o x y : le_opt o x -> x <= y -> le_opt o y.
Proof. intros (s & E & H) H2. exists s. split; [exact E|lia]. Qed.

Lemma step_inv i j k m : Inv i j k m -> Inv i j (S k) (fw_step i j k m).
Proof.
  intros (HA1 & HA2 & HD & HE & HB & HC). unfold fw_step.
  (* an entry that is not improved *)
  assert (Hkeep : (forall s1 s2, fst m i k = Some s1 -> fst m k j = Some s2 -> le_opt (fst m i j) (s1 + s2)) -> Inv i j (S k) m).
  { intros Hcmp. split; [exact HA1|]. split; [exact HA2|]. split; [exact HD|]. split; [exact HE|]. split.
    - intros p q r s h Ht Hr Es Eh. destruct (Nat.eq_dec p i) as [->|Hp]; [destruct (Nat.eq_dec q j) as [->|Hq]; [destruct (Nat.eq_dec r k) as [->|Hrk]|]|].
      + destruct (HA1 _ _ _ Eh) as (h' & Eh' & Hh). eapply le_opt_trans; [apply Hcmp; eauto|]. lia.
      + eapply HB; eauto. unfold upto in *. lia.
      + eapply HB; eauto. unfold upto in *. lia.
      + eapply HB; eauto. unfold upto in *. lia.
    - intros p q r s h Ht Hr Eh Es. destruct (Nat.eq_dec p i) as [->|Hp]; [destruct (Nat.eq_dec q j) as [->|Hq]; [destruct (Nat.eq_dec r k) as [->|Hrk]|]|].
      + destruct (HA1 _ _ _ Eh) as (h' & Eh' & Hh). eapply le_opt_trans; [apply Hcmp; eauto|]. lia.
      + eapply HC; eauto. unfold upto in *. lia.
      + eapply HC; eauto. unfold upto in *. lia.
      + eapply HC; eauto. unfold upto in *. lia. }
  destruct (fst m i k) as [s1|] eqn:E1; [|apply Hkeep; congruence].
  destruct (fst m k j) as [s2|] eqn:E2; [|apply Hkeep; congruence]. cbn zeta.
  destruct (match fst m i j with Some z => s1 + s2 <? z | None => true end) eqn:Elt.
  2:{ apply Hkeep. intros x y Ex Ey. injection Ex as <-. injection Ey as <-. destruct (fst m i j) as [z|] eqn:E3; [|discriminate]. exists z. split; [reflexivity|lia]. }
  clear Hkeep.
  assert (Hlt : forall z, fst m i j = Some z -> s1 + s2 < z) by (intros z E; rewrite E in Elt; lia). clear Elt.
  assert (Hs2 := A2_nonneg _ _ _ _ HA2 E2). assert (Hs1 := A2_nonneg _ _ _ _ HA2 E1).
  assert (Hkj : k <> j) by (intros ->; specialize (Hlt _ E1); lia).
  assert (Hki : k <> i) by (intros ->; specialize (Hlt _ E2); lia).
  set (m' := (upd2 (fst m) i j (Some (s1 + s2)), upd2 (snd m) i j (snd m i k))).
  assert (Hij : fst m' i j = Some (s1 + s2)) by (unfold m'; cbn; apply upd2_same).
  assert (Xij : snd m' i j = snd m i k) by (unfold m'; cbn; apply upd2_same).
  assert (Hoth : forall p q, (p <> i \/ q <> j) -> fst m' p q = fst m p q /\ snd m' p q = snd m p q).
  { intros p q H. unfold m'. cbn. rewrite !upd2_other by exact H. auto. }
  assert (Hdec : forall p q z, le_opt (fst m p q) z -> le_opt (fst m' p q) z).
  { intros p q z (s & E & Hs). destruct (Nat.eq_dec p i) as [->|Hp]; [destruct (Nat.eq_dec q j) as [->|Hq]|].
    - exists (s1 + s2). split; [exact Hij|]. specialize (Hlt _ E). lia.
    - destruct (Hoth i q ltac:(lia)) as [-> _]. exists s. auto.
    - destruct (Hoth p q ltac:(lia)) as [-> _]. exists s. auto. }
  destruct (HA2 _ _ _ E1) as (Hi & Hk & x & ls & w & Hx & Hlen & Hw & Hs).
  destruct (HA2 _ _ _ E2) as (_ & Hj & _).
  split; [|split; [|split; [|split; [|split]]]].
  - intros p q z Hz. apply Hdec, HA1, Hz.
  - intros p q s Es. destruct (Nat.eq_dec p i) as [->|Hp]; [destruct (Nat.eq_dec q j) as [->|Hq]|].
    + rewrite Hij in Es. injection Es as <-. rewrite Xij. split; [exact Hi|]. split; [exact Hj|].
      destruct (A2_walk _ _ _ _ HA2 E2) as (ls2 & w2 & Hw2 & _ & Hle2).
      exists x, (ls ++ ls2), (w + w2). split; [exact Hx|]. split; [|split; [eapply walk_app; eauto|lia]].
      destruct (Nat.le_gt_cases (len i (snd m i k)) (len i j)) as [H|H]; [exact H|]. exfalso.
      apply c_dom in Hx as (_ & _ & _ & Hl & Ha). assert (Hb := len_bounds i j Hi Hj).
      destruct (Hmono _ _ _ (len i j) Ha ltac:(lia)) as (x' & Ex' & Hx').
      assert (Ec : c i j = Some x') by (unfold c; destruct (Nat.ltb_spec j n); [exact Ex'|lia]).
      destruct (HA1 _ _ _ Ec) as (z & Ez & Hz). specialize (Hlt _ Ez). apply walk_nonneg in Hw. lia.
    + destruct (Hoth i q ltac:(lia)) as [E1' E2']. rewrite E1' in Es. rewrite E2'. now apply HA2.
    + destruct (Hoth p q ltac:(lia)) as [E1' E2']. rewrite E1' in Es. rewrite E2'. now apply HA2.
  - intros p q s Es Hqp. destruct (Nat.eq_dec p i) as [->|Hp]; [destruct (Nat.eq_dec q j) as [->|Hq]|].
    + rewrite Hij in Es. injection Es as <-. rewrite Xij. intros Hy.
      destruct (Nat.lt_trichotomy k j) as [Hlt'|[Heq|Hgt]]; [|contradiction|].
      * destruct (HD _ _ _ E1 ltac:(lia) Hy) as (x0 & h & k0 & ls0 & w0 & H1 & H2 & H3 & H4 & H5).
        destruct (A2_walk _ _ _ _ HA2 E2) as (ls2 & w2 & Hw2 & _ & Hle2).
        exists x0, h, k0, (ls0 ++ ls2), (w0 + w2). split; [exact H1|]. split; [lia|]. split; [exact H3|]. split; [eapply walk_app; eauto|lia].
      * destruct (HE i k) as [Ed Ex]; [right; lia|]. rewrite E1 in Ed. rewrite Ex in Hy |- * by congruence.
        destruct (HE k j) as [Ed2 _]; [left; lia|]. rewrite E2 in Ed2.
        exists s1, s2, j, [], 0. split; [congruence|]. split; [lia|]. split; [congruence|]. split; [now constructor|lia].
    + destruct (Hoth i q ltac:(lia)) as [E1' E2']. rewrite E1' in Es. rewrite E2'. now apply HD.
    + destruct (Hoth p q ltac:(lia)) as [E1' E2']. rewrite E1' in Es. rewrite E2'. now apply HD.
  - intros p q Hpq. destruct (Hoth p q ltac:(lia)) as [-> ->]. now apply HE.
  - intros p q r s h Ht Hr Es Eh.
    assert (Es' : fst m p r = Some s).
    { destruct (Nat.eq_dec p i) as [->|Hp]; [destruct (Nat.eq_dec r j) as [->|Hq]|].
      - exfalso. unfold upto in Ht. lia.
      - destruct (Hoth i r ltac:(lia)) as [E _]. congruence.
      - destruct (Hoth p r ltac:(lia)) as [E _]. congruence. }
    destruct (Nat.eq_dec p i) as [->|Hp]; [destruct (Nat.eq_dec q j) as [->|Hq]; [destruct (Nat.eq_dec r k) as [->|Hrk]|]|].
    + exists (s1 + s2). split; [exact Hij|]. destruct (HA1 _ _ _ Eh) as (h' & Eh' & Hh). rewrite E1 in Es'. rewrite E2 in Eh'. injection Es' as <-. injection Eh' as <-. lia.
    + apply Hdec. eapply HB; eauto. unfold upto in *. lia.
    + apply Hdec. eapply HB; eauto. unfold upto in *. lia.
    + apply Hdec. eapply HB; eauto. unfold upto in *. lia.
  - intros p q r s h Ht Hr Eh Es.
    assert (Es' : fst m r q = Some s).
    { destruct (Hoth r q) as [E _]; [|congruence]. unfold upto in Ht. lia. }
    destruct (Nat.eq_dec p i) as [->|Hp]; [destruct (Nat.eq_dec q j) as [->|Hq]; [destruct (Nat.eq_dec r k) as [->|Hrk]|]|].
    + exists (s1 + s2). split; [exact Hij|]. destruct (HA1 _ _ _ Eh) as (h' & Eh' & Hh). rewrite E2 in Es'. rewrite E1 in Eh'. injection Es' as <-. injection Eh' as <-. lia.
    + apply Hdec. eapply HC; eauto. unfold upto in *. lia.
    + apply Hdec. eapply HC; eauto. unfold upto in *. lia.
    + apply Hdec. eapply HC; eauto. unfold upto in *. lia.
Qed.

Lemma floyd_inv N m : (n <= N)%nat -> Inv 0 0 0 m -> exists m', floyd N m = m' /\ A1 m' /\ A2 m' /\ DD m' /\
  (forall p q k s h, (k < q)%nat -> fst m' p k = Some s -> c k q = Some h -> le_opt (fst m' p q) (s + h)) /\
  (forall p q k s h, (k < p)%nat -> c p k = Some h -> fst m' k q = Some s -> le_opt (fst m' p q) (h + s)).
Proof.
  intros HN H0. exists (floyd N m). split; [reflexivity|].
  assert (Hall : Inv N 0 0 (floyd N m)).
  { unfold floyd. apply (fold_seq_ind (fun i m => Inv i 0 0 m)); [exact H0|]. intros i m1 Hi H1.
    assert (Hrow : Inv i N 0 (fold_left (fun m j => fold_left (fun m k => fw_step i j k m) (range 0 N) m) (range 0 N) m1)).
    { apply (fold_seq_ind (fun j m => Inv i j 0 m)); [exact H1|]. intros j m2 Hj H2.
      assert (Hcol : Inv i j N (fold_left (fun m k => fw_step i j k m) (range 0 N) m2)).
      { apply (fold_seq_ind (fun k m => Inv i j k m)); [exact H2|]. intros k m3 Hk. apply step_inv. }
      destruct Hcol as (G1 & G2 & G3 & G4 & G5 & G6). split; [exact G1|]. split; [exact G2|]. split; [exact G3|]. split; [|split].
      - intros p q Hpq. apply G4. lia.
      - intros p q k s h Ht Hr Es Eh. apply (G5 p q k); auto. destruct (G2 _ _ _ Es) as (_ & Hkn & _). unfold upto in *. lia.
      - intros p q k s h Ht Hr Eh Es. apply (G6 p q k); auto. apply c_dom in Eh. unfold upto in *. lia. }
    destruct Hrow as (G1 & G2 & G3 & G4 & G5 & G6). split; [exact G1|]. split; [exact G2|]. split; [exact G3|]. split; [|split].
    - intros p q Hpq. apply G4. lia.
    - intros p q k s h Ht Hr Es Eh. apply (G5 p q k); auto. apply c_dom in Eh. unfold upto in *. lia.
    - intros p q k s h Ht Hr Eh Es. apply (G6 p q k); auto. destruct (G2 _ _ _ Es) as (_ & Hkn & _). unfold upto in *. lia. }
  destruct Hall as (G1 & G2 & G3 & _ & G5 & G6). split; [exact G1|]. split; [exact G2|]. split; [exact G3|]. split.
  - intros p q k s h Hk Es Eh. apply (G5 p q k); auto. destruct (G2 _ _ _ Es) as (Hp & _). unfold upto. lia.
  - intros p q k s h Hk Eh Es. apply (G6 p q k); auto. apply c_dom in Eh. unfold upto. lia.
Qed.

(** ** What the table says at the end *)
Lemma start_inv m : (forall i j, fst m i j = c i j) -> (forall i j, c i j <> None -> snd m i j = j) -> Inv 0 0 0 m.
Proof.
  intros HS HX. split; [|split; [|split; [|split; [|split]]]].
  - intros i j x Hx. exists x. split; [now rewrite HS|lia].
  - intros i j s Es. rewrite HS in Es. assert (Hd := Es). apply c_dom in Hd as (Hi & Hj & _). split; [exact Hi|]. split; [exact Hj|].
    rewrite HX by congruence. exists s, [], 0. split; [exact Es|]. split; [lia|]. split; [now constructor|lia].
  - intros i j s Es Hji Hx. rewrite HS in Es. rewrite HX in Hx by congruence. lia.
  - intros p q _. split; [apply HS|apply HX].
  - intros p q k s h [H|(H1 & [H|(H2 & H3)])]; lia.
  - intros p q k s h [H|(H1 & [H|(H2 & H3)])]; lia.
Qed.

Lemma walk_snoc u ls l v w : walk u (ls ++ [l]) v w -> exists v' w' x, walk u ls v' w' /\ a v' l = Some x /\ v = adv v' l /\ w = w' + x.
Proof.
  revert u w. induction ls as [|l0 ls IH]; intros u w H; cbn in H.
  - inversion H as [|? ? x ? ? w0 Hx Hw]; subst. inversion Hw as [? Hu|]; subst. exists u, 0, x. split; [constructor; now apply Hdom in Hx|]. split; [exact Hx|]. split; [reflexivity|lia].
  - inversion H as [|? ? x ? ? w0 Hx Hw]; subst. destruct (IH _ _ Hw) as (v' & w' & x' & H1 & H2 & H3 & H4). exists v', (x + w'), x'. split; [econstructor; eauto|]. split; [exact H2|]. split; [exact H3|lia].
Qed.

Section Final.
Variable m : fw.
Hypothesis F1 : A1 m.
Hypothesis F2 : A2 m.
Hypothesis FD : DD m.
Hypothesis FB : forall p q k s h, (k < q)%nat -> fst m p k = Some s -> c k q = Some h -> le_opt (fst m p q) (s + h).
Hypothesis FC : forall p q k s h, (k < p)%nat -> c p k = Some h -> fst m k q = Some s -> le_opt (fst m p q) (h + s).

Lemma forward_walk ls : forall u v w, walk u ls v w -> ls <> [] -> (u + list_sum ls = v)%nat -> le_opt (fst m u v) w.
Proof.
  induction ls as [|l ls IH] using rev_ind; intros u v w H Hne Hs; [easy|].
  destruct (walk_snoc _ _ _ _ _ H) as (v' & w' & x & H1 & H2 & H3 & H4). subst w. rewrite list_sum_app in Hs. cbn [list_sum fold_right] in Hs.
  destruct (walk_dom _ _ _ _ H) as [Hu Hv]. destruct (Hdom _ _ _ H2) as [Hv' Hl]. assert (Hc : c v' v = Some x) by (rewrite H3, c_adv by assumption; exact H2).
  destruct ls as [|l0 ls].
  - inversion H1; subst. destruct (F1 _ _ _ Hc) as (s & E & Hs'). exists s. split; [exact E|lia].
  - destruct (walk_end _ _ _ _ H1) as [k Hk].
    assert (Hv0 : (u + list_sum (l0 :: ls) = v')%nat) by (destruct k; [lia|]; nia).
    destruct (IH _ _ _ H1 ltac:(discriminate) Hv0) as (s & E & Hs'). eapply le_opt_trans; [eapply FB; [|exact E|exact Hc]; lia|]. lia.
Qed.

Lemma forward_exact u v ls w : (u < v)%nat -> walk u ls v w -> le_opt (fst m u v) w.
Proof.
  intros Huv H. assert (Hne : ls <> []) by (intros ->; inversion H; subst; lia).
  destruct (truncate_to _ _ _ _ H Hne) as (ls' & w' & H1 & H2 & H3). eapply le_opt_trans; [|exact H3]. apply (forward_walk ls'); [exact H1| |].
  - intros ->. unfold len in H2. destruct (Nat.ltb_spec u v); cbn in H2; lia.
  - rewrite H2. unfold len. ltbs.
Qed.

Lemma split_wrap ls : forall u v w, walk u ls v w -> (n <= u + list_sum ls)%nat ->
  exists ls1 p l x ls2 w1 w2, ls = ls1 ++ l :: ls2 /\ walk u ls1 p w1 /\ (u + list_sum ls1 = p)%nat /\ a p l = Some x /\ (n <= p + l)%nat /\
    walk (p + l - n) ls2 v w2 /\ w = w1 + x + w2.
Proof.
  induction ls as [|l ls IH]; intros u v w H Hs.
  - cbn in Hs. inversion H; subst. lia.
  - inversion H as [|? ? x ? ? w0 Hx Hw]; subst. destruct (Hdom _ _ _ Hx) as [Hu Hl]. destruct (Nat.le_gt_cases n (u + l)) as [Hle|Hgt].
    + exists [], u, l, x, ls, 0, w0. split; [reflexivity|]. split; [now constructor|]. split; [cbn; lia|]. split; [exact Hx|]. split; [exact Hle|].
      unfold adv in Hw. destruct (Nat.ltb_spec (u + l) n); [lia|]. split; [exact Hw|lia].
    + rewrite sum_cons in Hs. assert (Ea : adv u l = (u + l)%nat) by (unfold adv; ltbs). rewrite Ea in Hw.
      destruct (IH _ _ _ Hw ltac:(lia)) as (ls1 & p & l' & x' & ls2 & w1 & w2 & E & G1 & G2 & G3 & G4 & G5 & G6).
      exists (l :: ls1), p, l', x', ls2, (x + w1), w2. split; [now rewrite E|]. split; [econstructor; [exact Hx|]; now rewrite Ea|]. split; [rewrite sum_cons; lia|]. split; [exact G3|]. split; [exact G4|]. split; [exact G5|lia].
Qed.

(** Every way around the circle is matched by an entry of the diagonal. *)
Lemma diagonal_good b ls w : walk b ls b w -> ls <> [] -> exists u, le_opt (fst m u u) w.
Proof.
  intros H Hne. destruct (truncate_to _ _ _ _ H Hne) as (ls' & w' & H1 & H2 & H3). destruct (walk_dom _ _ _ _ H) as [Hb _].
  assert (Es : list_sum ls' = n) by (rewrite H2; unfold len; ltbs).
  destruct (split_wrap _ _ _ _ H1 ltac:(lia)) as (ls1 & p & l & x & ls2 & w1 & w2 & E & G1 & G2 & G3 & G4 & G5 & G6).
  destruct (Hdom _ _ _ G3) as [Hp Hl]. exists p. set (q := (p + l - n)%nat) in *.
  assert (Hpq : (q < p)%nat) by (unfold q; lia). assert (Hc : c p q = Some x).
  { replace q with (adv p l) by (unfold adv, q; ltbs). rewrite c_adv by assumption. exact G3. }
  assert (Hw : walk q (ls2 ++ ls1) p (w2 + w1)) by (eapply walk_app; eauto).
  destruct (forward_exact _ _ _ _ Hpq Hw) as (s & Es' & Hs). eapply le_opt_trans; [eapply FC; [exact Hpq|exact Hc|exact Es']|]. lia.
Qed.

Definition exact_to (b x : nat) : Prop := exists s, fst m x b = Some s /\ forall ls w, walk x ls b w -> ls <> [] -> s <= w.

Lemma exact_next b x : exact_to b x -> snd m x b <> b -> exact_to b (snd m x b) /\
  exists s h s', fst m x b = Some s /\ c x (snd m x b) = Some h /\ fst m (snd m x b) b = Some s' /\ h + s' <= s /\ (len x (snd m x b) + len (snd m x b) b = len x b)%nat.
Proof.
  intros (s & Es & Hs) Hb. destruct (F2 _ _ _ Es) as (Hx & HbN & h & ls & w & Hc & Hlen & Hw & Hle). set (y := snd m x b) in *.
  assert (Hy := c_dom _ _ _ Hc). destruct Hy as (_ & Hy & Hxy & Hlxy & _).
  assert (Hlens : (len x y + len y b = len x b)%nat).
  { unfold len in *. destruct (Nat.ltb_spec x y), (Nat.ltb_spec x b), (Nat.ltb_spec y b); lia. }
  assert (Hyw : forall ls w, walk y ls b w -> s <= h + w).
  { intros ls0 w0 H0. apply (Hs ([len x y] ++ ls0)); [|discriminate]. eapply walk_app; [apply walk_one; exact Hc|exact H0]. }
  assert (Hgood : forall w0, le_opt (fst m y b) w0 -> h + w0 <= s -> exact_to b y /\ exists s0 h0 s', fst m x b = Some s0 /\ c x y = Some h0 /\ fst m y b = Some s' /\ h0 + s' <= s0 /\ (len x y + len y b = len x b)%nat).
  { intros w0 (s' & E' & H') H0. split.
    - exists s'. split; [exact E'|]. intros ls1 w1 H1 _. specialize (Hyw _ _ H1). lia.
    - exists s, h, s'. split; [exact Es|]. split; [exact Hc|]. split; [exact E'|]. split; [lia|exact Hlens]. }
  destruct (Nat.lt_trichotomy y b) as [Hlt|[Heq|Hgt]]; [|contradiction|].
  - apply (Hgood w); [|exact Hle]. eapply forward_exact; eauto.
  - (* the way from y still has to pass index 0 *)
    assert (Hxb : (b <= x)%nat /\ (x < y)%nat).
    { unfold len in *. destruct (Nat.ltb_spec x y), (Nat.ltb_spec x b), (Nat.ltb_spec y b); lia. }
    destruct (FD _ _ _ Es ltac:(lia) ltac:(fold y; lia)) as (x0 & h0 & k & ls0 & w0 & K1 & K2 & K3 & K4 & K5). fold y in K1, K3.
    assert (x0 = h) by congruence. subst x0. apply (Hgood (h0 + w0)); [|lia].
    destruct (Nat.eq_dec k b) as [->|Hkb].
    + destruct (F1 _ _ _ K3) as (s' & E' & H'). apply walk_nonneg in K4. exists s'. split; [exact E'|lia].
    + destruct (forward_exact k b ls0 w0 ltac:(lia) K4) as (s' & E' & H'). eapply le_opt_trans; [eapply FC; [|exact K3|exact E']; lia|]. lia.
Qed.

(** Following the pointers to [b]. *)
Inductive trail (b : nat) : nat -> list nat -> Prop :=
| trail_last x : snd m x b = b -> trail b x [b]
| trail_more x t : snd m x b <> b -> trail b (snd m x b) t -> trail b x (snd m x b :: t).
Fixpoint lens (x : nat) (ys : list nat) : list nat := match ys with [] => [] | y :: t => len x y :: lens y t end.

Lemma follow b : forall k x, (len x b <= k)%nat -> exact_to b x ->
  exists ys W, trail b x ys /\ Forall (fun y => (y < n)%nat) ys /\ walk x (lens x ys) b W /\ list_sum (lens x ys) = len x b /\ le_opt (fst m x b) (W) /\ (exists s, fst m x b = Some s /\ W <= s).
Proof.
  induction k as [|k IH]; intros x Hk He.
  - destruct He as (s & Es & _). destruct (F2 _ _ _ Es) as (Hx & Hb & _). assert (H := len_bounds x b Hx Hb). lia.
  - assert (He' := He). destruct He' as (s & Es & Hs). destruct (F2 _ _ _ Es) as (Hx & Hb & h & ls & w & Hc & Hlen & Hw & Hle).
    destruct (Nat.eq_dec (snd m x b) b) as [E|E].
    + exists [b], h. rewrite E in Hc. split; [now constructor|]. split; [now repeat constructor|]. cbn [lens]. split; [now apply walk_one|]. split; [cbn; lia|].
      apply walk_nonneg in Hw. split; [|exists s; split; [exact Es|lia]]. exists s. split; [exact Es|]. apply (Hs [len x b]); [now apply walk_one|discriminate].
    + destruct (exact_next b x He E) as (Hey & s0 & h0 & s' & E0 & Eh & E' & H1 & H2). rewrite Es in E0. injection E0 as <-. rewrite Hc in Eh. injection Eh as <-.
      assert (Hb1 := c_dom _ _ _ Hc). destruct (IH (snd m x b) ltac:(lia) Hey) as (ys & W & T1 & TF & T2 & T3 & T4 & s1 & T5 & T6).
      rewrite E' in T5. injection T5 as <-. exists (snd m x b :: ys), (h + W). split; [now constructor|]. split; [constructor; [apply Hb1|exact TF]|]. cbn [lens].
      assert (Hwalk : walk x (len x (snd m x b) :: lens (snd m x b) ys) b (h + W)) by (apply (walk_app _ [len x (snd m x b)] (snd m x b)); [apply walk_one; exact Hc|exact T2]).
      split; [exact Hwalk|]. split; [rewrite sum_cons, T3; exact H2|]. split; [|exists s; split; [exact Es|lia]]. exists s. split; [exact Es|]. eapply Hs; [exact Hwalk|discriminate].
Qed.

(** The best entry of the diagonal and the pointers from there. *)
Lemma best_split b : (forall u s, fst m u u = Some s -> le_opt (fst m b b) s) -> fst m b b <> None ->
  exists ys W, trail b b ys /\ Forall (fun y => (y < n)%nat) ys /\ walk b (lens b ys) b W /\ list_sum (lens b ys) = n /\ fst m b b = Some W /\
    forall u ls w, walk u ls u w -> ls <> [] -> W <= w.
Proof.
  intros Hmin Hsome.
  assert (Hall : forall u ls w, walk u ls u w -> ls <> [] -> le_opt (fst m b b) w).
  { intros u ls w H Hne. destruct (diagonal_good _ _ _ H Hne) as (p & s & E & Hs). eapply le_opt_trans; [apply (Hmin _ _ E)|exact Hs]. }
  assert (Hex : exists s, fst m b b = Some s) by (destruct (fst m b b); [eauto|contradiction]). destruct Hex as [s Es].
  assert (He : exact_to b b).
  { exists s. split; [exact Es|]. intros ls w Hw Hne. destruct (Hall _ _ _ Hw Hne) as (s' & Es' & H'). rewrite Es in Es'; injection Es' as <-; exact H'. }
  destruct (F2 _ _ _ Es) as (Hb & _). destruct (follow b (len b b) b ltac:(lia) He) as (ys & W & T1 & TF & T2 & T3 & (s1 & T4 & T4') & s2 & T5 & T6).
  rewrite T4 in T5. injection T5 as <-. assert (s1 = W) by lia. subst s1.
  exists ys, W. split; [exact T1|]. split; [exact TF|]. split; [exact T2|]. split; [rewrite T3; unfold len; ltbs|]. split; [exact T4|].
  intros u ls w Hw Hne. destruct (Hall _ _ _ Hw Hne) as (s' & Es' & H'). rewrite T4 in Es'. injection Es' as <-. exact H'.
Qed.

(** With single customers there is a closed walk. *)
Lemma some_split b : (forall u s, fst m u u = Some s -> le_opt (fst m b b) s) -> (forall u, (u < n)%nat -> exists x, a u 1 = Some x) -> fst m b b <> None.
Proof.
  intros Hmin Hunit. assert (Hex : exists ls w, walk 0 ls 0 w /\ ls <> []).
  { assert (G : forall k, (k < n)%nat -> exists ls w, walk 0 ls k w).
    { induction k as [|k IH]; intros Hk; [exists [], 0; constructor; lia|]. destruct (IH ltac:(lia)) as (ls & w & Hw). destruct (Hunit k ltac:(lia)) as [x Hx].
      exists (ls ++ [1%nat]), (w + (x + 0)). eapply walk_app; [exact Hw|]. econstructor; [exact Hx|]. replace (adv k 1) with (S k) by (unfold adv; ltbs). constructor. lia. }
    destruct (G (n - 1)%nat ltac:(lia)) as (ls & w & Hw). destruct (Hunit (n - 1)%nat ltac:(lia)) as [x Hx].
    exists (ls ++ [1%nat]), (w + (x + 0)). split; [|now destruct ls]. eapply walk_app; [exact Hw|]. econstructor; [exact Hx|]. replace (adv (n - 1) 1) with 0%nat by (unfold adv; ltbs). constructor. lia. }
  destruct Hex as (ls & w & Hw & Hne). destruct (diagonal_good _ _ _ Hw Hne) as (p & s & E & Hs). destruct (Hmin _ _ E) as (s' & E' & _). congruence.
Qed.
End Final.
End Circle.
