(** * Cheapest insertion: heap, seeds and routes *)
From Verif Require Import Spec Spec_inter Spec_savings Spec_cins PyBase M_util M_intra M_psavings M_cins P_base.
From Coq Require Import ZifyBool ZifyNat Lia.

(** ** Sets as lists *)
Lemma mem_in x l : mem x l = true <-> In x l.
Proof. unfold mem. rewrite existsb_exists. split; [intros [y [H E]]|intro H; exists x]. apply Nat.eqb_eq in E. congruence. rewrite Nat.eqb_refl. auto. Qed.
Lemma mem_not x l : mem x l = false <-> ~ In x l.
Proof. rewrite <- mem_in. destruct (mem x l); intuition congruence. Qed.
Lemma in_del x y l : In y (del x l) <-> In y l /\ y <> x.
Proof. unfold del. rewrite filter_In. destruct (Nat.eqb_spec x y); cbn; intuition congruence. Qed.
Lemma in_del_all xs : forall y l, In y (del_all xs l) <-> In y l /\ ~ In y xs.
Proof. induction xs as [|x t IH]; intros y l; cbn. tauto. rewrite IH, in_del. intuition congruence. Qed.
Lemma nodup_del x l : NoDup l -> NoDup (del x l).
Proof. apply NoDup_filter. Qed.
Lemma nodup_del_all xs : forall l, NoDup l -> NoDup (del_all xs l).
Proof. induction xs as [|x t IH]; intros l H; cbn; auto. apply IH, nodup_del, H. Qed.
Lemma del_out x l : ~ In x l -> del x l = l.
Proof. unfold del. induction l as [|y t IH]; intro H; cbn; auto. destruct (Nat.eqb_spec x y) as [->|]; cbn. exfalso; apply H; cbn; auto. f_equal. apply IH. intro; apply H; cbn; auto. Qed.
Lemma del_perm x l : NoDup l -> In x l -> Permutation l (x :: del x l).
Proof.
  induction l as [|y t IH]; intros H I; [easy|]. inversion H; subst. unfold del. cbn. fold (del x t). destruct (Nat.eqb_spec x y) as [->|Hn]; cbn.
  - rewrite del_out; auto.
  - destruct I as [->|I]; [easy|]. rewrite (IH H3 I) at 1. apply perm_swap.
Qed.
Lemma del_all_perm xs : forall l, NoDup l -> NoDup xs -> (forall x, In x xs -> In x l) -> Permutation l (xs ++ del_all xs l).
Proof.
  induction xs as [|x t IH]; intros l H Hx I; cbn; auto. inversion Hx; subst.
  rewrite (del_perm x l) at 1 by (auto; apply I; cbn; auto). constructor. apply IH; auto. apply nodup_del; auto.
  intros y Hy. apply in_del. split. apply I; cbn; auto. congruence.
Qed.
Lemma del_len x l : NoDup l -> In x l -> length l = S (length (del x l)).
Proof. intros H I. rewrite (Permutation_length (del_perm x l H I)). reflexivity. Qed.
Lemma del_all_len xs l : NoDup l -> NoDup xs -> xs <> [] -> (forall x, In x xs -> In x l) -> (length (del_all xs l) < length l)%nat.
Proof. intros H Hx Hn I. rewrite (Permutation_length (del_all_perm xs l H Hx I)), app_length. destruct xs; [easy|cbn; lia]. Qed.

(** ** The heap *)
Lemma entry_leb_total a b : entry_leb a b = false -> entry_leb b a = true.
Proof. unfold entry_leb. intros. repeat (match goal with |- context [if ?c then _ else _] => destruct c eqn:? | H : context [if ?c then _ else _] |- _ => destruct c eqn:? end; try easy); lia. Qed.
Lemma entry_leb_trans a b c : entry_leb a b = true -> entry_leb b c = true -> entry_leb a c = true.
Proof. unfold entry_leb. intros. repeat (match goal with |- context [if ?c then _ else _] => destruct c eqn:? | H : context [if ?c then _ else _] |- _ => destruct c eqn:? end; try easy); lia. Qed.
Lemma pop_min_perm : forall l e m r, pop_min e l = (m, r) -> Permutation (e :: l) (m :: r).
Proof.
  induction l as [|x t IH]; intros e m r H; cbn in H. inversion H; auto.
  destruct (pop_min x t) as [m' r'] eqn:E. apply IH in E. destruct (entry_leb e m'); inversion H; subst; auto.
  rewrite E. apply perm_swap.
Qed.
Lemma entry_leb_refl e : entry_leb e e = true.
Proof. unfold entry_leb. rewrite !Z.ltb_irrefl. lia. Qed.
Lemma pop_min_least : forall l e m r x, pop_min e l = (m, r) -> In x (e :: l) -> entry_leb m x = true.
Proof.
  induction l as [|y t IH]; intros e m r x H I; cbn in H. inversion H; subst. destruct I as [->|[]]. apply entry_leb_refl.
  destruct (pop_min y t) as [m' r'] eqn:E. destruct (entry_leb e m') eqn:F; inversion H; subst.
  - destruct I as [->|I]. apply entry_leb_refl. eapply entry_leb_trans; [exact F|]. eapply IH; [exact E|exact I].
  - destruct I as [->|I]. apply entry_leb_total, F. eapply IH; [exact E|exact I].
Qed.
Definition entry_pref (e : entry) : Z * Z * Z := (en_strain e, en_second e, en_saving e).
Lemma entry_leb_pref a b : entry_leb a b = true -> pref_le (entry_pref a) (entry_pref b).
Proof. unfold entry_leb, pref_le, entry_pref. intro H. repeat (match type of H with context [if ?c then _ else _] => destruct c eqn:? end; try easy); lia. Qed.

(** ** Seeds *)
Definition chosen_of (x : seed) : list nat := if Nat.eqb (sd_a x) (sd_b x) then [sd_a x] else [sd_a x; sd_b x].
Lemma choose_seed x u : choose (seed_custs x) [] u = if mem (sd_a x) u && mem (sd_b x) u then chosen_of x else [].
Proof.
  unfold seed_custs, chosen_of. cbn [choose]. change (mem (sd_a x) []) with false. cbn [negb app]. destruct (mem (sd_a x) u); cbn [negb andb]; [|reflexivity].
  destruct (mem (sd_b x) u); cbn [negb]; [|reflexivity]. unfold mem. cbn [existsb app]. rewrite orb_false_r, (Nat.eqb_sym (sd_b x)). destruct (Nat.eqb (sd_a x) (sd_b x)); reflexivity.
Qed.
Lemma chosen_nonempty x : chosen_of x <> [].
Proof. unfold chosen_of. destruct (Nat.eqb (sd_a x) (sd_b x)); easy. Qed.
Lemma chosen_in x c : In c (chosen_of x) <-> c = sd_a x \/ c = sd_b x.
Proof. unfold chosen_of. destruct (Nat.eqb_spec (sd_a x) (sd_b x)) as [E|]; cbn. rewrite <- E. intuition. intuition. Qed.
Lemma chosen_nodup x : NoDup (chosen_of x).
Proof. unfold chosen_of. destruct (Nat.eqb_spec (sd_a x) (sd_b x)) as [E|]; repeat constructor; cbn; intuition. Qed.

Lemma pick_seed_spec : forall sl u, match pick_seed (map seed_custs sl) u with
  | None => forall x, In x sl -> ~ (In (sd_a x) u /\ In (sd_b x) u)
  | Some (chosen, t) => exists pre x post, sl = pre ++ x :: post /\ t = map seed_custs post /\ chosen = chosen_of x /\
      In (sd_a x) u /\ In (sd_b x) u /\ forall y, In y pre -> ~ (In (sd_a y) u /\ In (sd_b y) u)
  end.
Proof.
  induction sl as [|x t IH]; intro u; cbn [map pick_seed]. intros x [].
  rewrite choose_seed. destruct (mem (sd_a x) u && mem (sd_b x) u) eqn:E.
  - apply andb_prop in E as [Ea Eb]. apply mem_in in Ea, Eb.
    destruct (chosen_of x) as [|c cs] eqn:Ec; [destruct (chosen_nonempty x Ec)|]. exists [], x, t. cbn. rewrite <- Ec. intuition. 
  - assert (Hx : ~ (In (sd_a x) u /\ In (sd_b x) u)) by (rewrite <- !mem_in; intros [Ha Hb]; rewrite Ha, Hb in E; discriminate).
    specialize (IH u). destruct (pick_seed (map seed_custs t) u) as [[chosen t']|].
    + destruct IH as (pre & y & post & -> & -> & -> & Ha & Hb & Hp). exists (x :: pre), y, post. cbn. repeat split; auto. intros z [<-|Hz]; auto.
    + intros y [<-|Hy]; auto.
Qed.

(** The stack is what is left of [S]; of each seed taken a customer is routed. *)
Definition both (x : seed) (u : list nat) : Prop := In (sd_a x) u /\ In (sd_b x) u.
Definition stack_ok (S sl : list seed) (u : list nat) : Prop :=
  exists used, S = used ++ sl /\ forall y, In y used -> ~ both y u.
Lemma stack_ok_incl S sl u u' : (forall c, In c u' -> In c u) -> stack_ok S sl u -> stack_ok S sl u'.
Proof. intros H (used & E & K). exists used. split; [exact E|]. intros y Hy [Ha Hb]. apply (K y Hy). split; auto. Qed.
(** The first seed of [S] with unrouted customers only *)
Definition picked (S : list seed) (u : list nat) (x : seed) : Prop :=
  both x u /\ exists pre post, S = pre ++ x :: post /\ forall y, In y pre -> ~ both y u.
Lemma pick_spec S sl u : stack_ok S sl u -> match pick_seed (map seed_custs sl) u with
  | None => forall x, In x S -> ~ both x u
  | Some (chosen, t) => exists x sl', t = map seed_custs sl' /\ chosen = chosen_of x /\ picked S u x /\ stack_ok S sl' (del_all (chosen_of x) u)
  end.
Proof.
  intros (used & E & K). pose proof (pick_seed_spec sl u) as P. destruct (pick_seed (map seed_custs sl) u) as [[chosen t]|].
  - destruct P as (pre & x & post & -> & -> & -> & Ha & Hb & Hp). exists x, post. split; [reflexivity|]. split; [reflexivity|].
    assert (Hn : forall y, In y (used ++ pre) -> ~ both y u) by (intros y Hy; apply in_app_or in Hy as [Hy|Hy]; [exact (K y Hy)|exact (Hp y Hy)]).
    split.
    + split; [split; auto|]. exists (used ++ pre), post. split; [rewrite <- app_assoc; exact E|exact Hn].
    + exists (used ++ pre ++ [x]). split; [rewrite <- !app_assoc; exact E|]. rewrite app_assoc. intros y Hy [Ya Yb].
      apply in_del_all in Ya as [Ya Na], Yb as [Yb Nb]. apply in_app_or in Hy as [Hy|[->|[]]]. apply (Hn y Hy). split; auto. apply Na, chosen_in. auto.
  - intros x Hx [Ha Hb]. rewrite E in Hx. apply in_app_or in Hx as [Hx|Hx]. apply (K x Hx). split; auto. apply (P x Hx). auto.
Qed.
Definition has_singles (S : list seed) (u : list nat) : Prop := forall c, In c u -> exists x, In x S /\ sd_a x = c /\ sd_b x = c.
Lemma pick_some S sl u : has_singles S u -> stack_ok S sl u -> u <> [] -> pick_seed (map seed_custs sl) u <> None.
Proof.
  intros Hs Hk Hu E. destruct u as [|c u']; [easy|]. destruct (Hs c (or_introl eq_refl)) as (x & Hx & Ha & Hb).
  pose proof (pick_spec S sl (c :: u') Hk) as P. rewrite E in P. apply (P x Hx). split; rewrite ?Ha, ?Hb; left; reflexivity.
Qed.

(** ** Sorting of the seeds *)
Lemma seed_leb_total a b : seed_leb a b = false -> seed_leb b a = true.
Proof. unfold seed_leb. intros. repeat (match goal with |- context [if ?c then _ else _] => destruct c eqn:? | H : context [if ?c then _ else _] |- _ => destruct c eqn:? end; try easy); lia. Qed.
Lemma seed_leb_trans a b c : seed_leb a b = true -> seed_leb b c = true -> seed_leb a c = true.
Proof. unfold seed_leb. intros. repeat (match goal with |- context [if ?c then _ else _] => destruct c eqn:? | H : context [if ?c then _ else _] |- _ => destruct c eqn:? end; try easy); lia. Qed.
Lemma seed_insert_perm x l : Permutation (x :: l) (seed_insert x l).
Proof. induction l as [|y t IH]; cbn; auto. destruct (seed_leb y x); auto. rewrite perm_swap. constructor. exact IH. Qed.
Lemma seed_sort_perm l : Permutation l (seed_sort l).
Proof. induction l as [|x t IH]; cbn; auto. rewrite IH at 1. apply seed_insert_perm. Qed.
Definition seed_desc (l : list seed) : Prop := forall pre x post, l = pre ++ x :: post -> forall y, In y post -> seed_leb y x = true.
Lemma seed_desc_cons x l : (forall y, In y l -> seed_leb y x = true) -> seed_desc l -> seed_desc (x :: l).
Proof. intros H K pre z post E y Hy. destruct pre as [|w pre]; inversion E; subst. auto. eapply K; eauto. Qed.
Lemma seed_insert_desc x l : seed_desc l -> seed_desc (seed_insert x l).
Proof.
  induction l as [|y t IH]; intro H; cbn.
  - apply seed_desc_cons; [intros ? []|auto].
  - assert (Ht : seed_desc t) by (intros pre z post E w Hw; apply (H (y :: pre) z post); [rewrite E; reflexivity|exact Hw]).
    assert (Hy : forall w, In w t -> seed_leb w y = true) by (intros w Hw; apply (H [] y t); auto).
    destruct (seed_leb y x) eqn:E.
    + apply seed_desc_cons; auto. intros w [<-|Hw]; auto. eapply seed_leb_trans; [apply Hy, Hw|exact E].
    + apply seed_desc_cons; auto. intros w Hw. apply (Permutation_in _ (Permutation_sym (seed_insert_perm x t))) in Hw. destruct Hw as [<-|Hw]; auto. apply seed_leb_total, E.
Qed.
Lemma seed_sort_desc l : seed_desc (seed_sort l).
Proof. induction l as [|x t IH]; cbn. intros pre x post E. destruct pre; discriminate. apply seed_insert_desc, IH. Qed.

(** ** Routes *)
Lemma edges_mid pre a b post : In (a, b) (edges (pre ++ a :: b :: post)).
Proof. induction pre as [|x t IH]; [cbn; auto|]. destruct t as [|y t']; cbn in *; auto. Qed.
Lemma edges_split a b l : In (a, b) (edges l) -> exists pre post, l = pre ++ a :: b :: post.
Proof.
  induction l as [|x t IH]; intro H; [easy|]. destruct t as [|y t']; [easy|]. destruct H as [E|H].
  - inversion E; subst. exists [], t'. auto.
  - destruct (IH H) as (pre & post & E). exists (x :: pre), post. rewrite E. auto.
Qed.
Lemma adjacent_in a b l : adjacent a b l = true <-> In (a, b) (edges l).
Proof.
  unfold adjacent. rewrite existsb_exists. split.
  - intros [[x y] [H E]]. apply andb_prop in E as [Ea Eb]. apply Nat.eqb_eq in Ea, Eb. cbn in *. congruence.
  - intro H. exists (a, b). cbn. rewrite !Nat.eqb_refl. auto.
Qed.
Lemma insert_between_cons a b c x y t : insert_between a b c (x :: y :: t) = if Nat.eqb x a && Nat.eqb y b then x :: c :: y :: t else x :: insert_between a b c (y :: t).
Proof. reflexivity. Qed.
Lemma insert_between_split a b c l : In (a, b) (edges l) ->
  exists pre post, l = pre ++ a :: b :: post /\ insert_between a b c l = pre ++ a :: c :: b :: post.
Proof.
  induction l as [|x t IH]; intro H; [easy|]. destruct t as [|y t']; [easy|].
  rewrite insert_between_cons. destruct (Nat.eqb_spec x a) as [->|]; [destruct (Nat.eqb_spec y b) as [->|]|]; cbn [andb].
  - exists [], t'. auto.
  - destruct H as [E|H]; [inversion E; congruence|]. destruct (IH H) as (pre & post & E & F). exists (a :: pre), post. rewrite F. split; [rewrite E; reflexivity|reflexivity].
  - destruct H as [E|H]; [inversion E; congruence|]. destruct (IH H) as (pre & post & E & F). exists (x :: pre), post. rewrite F. split; [rewrite E; reflexivity|reflexivity].
Qed.
Lemma insert_between_at a b c r : In (a, b) (edges (0%nat :: r ++ [0%nat])) ->
  exists p, (p <= length r)%nat /\ node_before p r = a /\ node_after p r = b /\
            insert_between a b c (0%nat :: r ++ [0%nat]) = 0%nat :: insert_at p c r ++ [0%nat].
Proof.
  intro H. destruct (insert_between_split a b c _ H) as (pre & post & E & F). rewrite F. exists (length pre).
  assert (Hl : length (0%nat :: r ++ [0%nat]) = (length pre + S (S (length post)))%nat) by (rewrite E, app_length; reflexivity).
  cbn [length] in Hl. rewrite app_length in Hl. cbn [length] in Hl. assert (Hp : (length pre <= length r)%nat) by lia.
  assert (Ha : node_before (length pre) r = a). { unfold node_before. replace (nth (length pre) (0%nat :: r) 0%nat) with (nth (length pre) (0%nat :: r ++ [0%nat]) 0%nat).
    rewrite E, app_nth2, Nat.sub_diag; auto. change (0%nat :: r ++ [0%nat]) with ((0%nat :: r) ++ [0%nat]). apply app_nth1. cbn. lia. }
  assert (Hb : node_after (length pre) r = b). { unfold node_after. change (nth (length pre) (r ++ [0%nat]) 0%nat) with (nth (S (length pre)) (0%nat :: r ++ [0%nat]) 0%nat).
    rewrite E, app_nth2 by lia. replace (S (length pre) - length pre)%nat with 1%nat by lia. reflexivity. }
  split; [exact Hp|]. split; [exact Ha|]. split; [exact Hb|]. unfold insert_at.
  assert (G : 0%nat :: firstn (length pre) r = pre ++ [a]).
  { change (0%nat :: firstn (length pre) r) with (firstn (S (length pre)) (0%nat :: r)). replace (firstn (S (length pre)) (0%nat :: r)) with (firstn (S (length pre)) (0%nat :: r ++ [0%nat])).
    rewrite E. replace (S (length pre)) with (length pre + 1)%nat by lia. rewrite firstn_app_2. reflexivity.
    change (0%nat :: r ++ [0%nat]) with ((0%nat :: r) ++ [0%nat]). rewrite firstn_app. replace (S (length pre) - length (0%nat :: r))%nat with 0%nat by (cbn; lia). rewrite app_nil_r. reflexivity. }
  assert (G2 : skipn (length pre) r ++ [0%nat] = b :: post).
  { apply (app_inv_head (pre ++ [a])). rewrite <- G at 1. rewrite <- app_assoc. cbn [app]. rewrite <- E, app_assoc, (firstn_skipn (length pre) r). reflexivity. }
  rewrite <- app_assoc. change (0%nat :: firstn (length pre) r ++ (c :: skipn (length pre) r) ++ [0%nat]) with ((0%nat :: firstn (length pre) r) ++ c :: (skipn (length pre) r ++ [0%nat])).
  rewrite G, G2, <- app_assoc. reflexivity.
Qed.

Lemma edge_at p r : (p <= length r)%nat -> In (node_before p r, node_after p r) (edges (0%nat :: r ++ [0%nat])).
Proof.
  unfold node_before, node_after. intro H.
  assert (E : 0%nat :: r ++ [0%nat] = firstn p (0%nat :: r) ++ nth p (0%nat :: r) 0%nat :: nth p (r ++ [0%nat]) 0%nat :: skipn (S p) (r ++ [0%nat])).
  { assert (E1 : 0%nat :: r = firstn p (0%nat :: r) ++ nth p (0%nat :: r) 0%nat :: skipn p r).
    { rewrite <- (firstn_skipn p (0%nat :: r)) at 1. f_equal. clear - H. revert p H. induction r as [|y t IH]; intros p H; destruct p; cbn in *; try lia; auto.
      destruct p; cbn in *; auto. specialize (IH (S p)). cbn in IH. apply IH. lia. }
    assert (E2 : skipn p r ++ [0%nat] = nth p (r ++ [0%nat]) 0%nat :: skipn (S p) (r ++ [0%nat])).
    { clear - H. revert p H. induction r as [|y t IH]; intros p H; destruct p; cbn in *; try lia; auto. rewrite IH by lia. reflexivity. }
    change (0%nat :: r ++ [0%nat]) with ((0%nat :: r) ++ [0%nat]). rewrite E1 at 1. rewrite <- app_assoc. cbn [app]. rewrite E2. reflexivity. }
  rewrite E. apply edges_mid.
Qed.
Definition delta (D : matrix) (a c b : nat) : Z := - D a b + D a c + D c b.
Lemma path_insert D pre a c b post : path_cost D (pre ++ a :: c :: b :: post) = path_cost D (pre ++ a :: b :: post) + delta D a c b.
Proof. rewrite (path_cost_mid D pre a (c :: b :: post)), (path_cost_mid D pre a (b :: post)), !path_cost_cons2. unfold delta. lia. Qed.
Lemma insert_at_spec p c r : (p <= length r)%nat -> 0%nat :: insert_at p c r ++ [0%nat] = firstn p (0%nat :: r) ++ node_before p r :: c :: skipn p r ++ [0%nat].
Proof.
  intro H. unfold insert_at, node_before. rewrite <- app_assoc. cbn [app].
  assert (E1 : 0%nat :: firstn p r = firstn p (0%nat :: r) ++ [nth p (0%nat :: r) 0%nat]).
  { clear - H. revert p H. assert (G : forall r x p, (p <= length r)%nat -> x :: firstn p r = firstn p (x :: r) ++ [nth p (x :: r) 0%nat]).
    { clear. induction r as [|y t IH]; intros x p H; destruct p; cbn in *; try lia; auto. f_equal. rewrite <- IH by lia. reflexivity. } intros; apply G; auto. }
  change (0%nat :: firstn p r ++ c :: skipn p r ++ [0%nat]) with ((0%nat :: firstn p r) ++ c :: skipn p r ++ [0%nat]). rewrite E1, <- app_assoc. reflexivity.
Qed.
Lemma insert_at_cost D p c r : (p <= length r)%nat -> route_cost D (insert_at p c r) = route_cost D r + delta D (node_before p r) c (node_after p r).
Proof.
  intro H. unfold route_cost. rewrite (insert_at_spec p c r H).
  assert (E1 : 0%nat :: r ++ [0%nat] = firstn p (0%nat :: r) ++ node_before p r :: skipn p r ++ [0%nat]).
  { unfold node_before. change (0%nat :: r ++ [0%nat]) with ((0%nat :: r) ++ [0%nat]). rewrite <- (firstn_skipn p (0%nat :: r)) at 1. rewrite <- app_assoc. f_equal.
    assert (G : forall r x p, (p <= length r)%nat -> skipn p (x :: r) = nth p (x :: r) 0%nat :: skipn p r).
    { clear. induction r as [|y t IH]; intros x p H; destruct p; cbn in *; try lia; auto. apply IH. lia. } rewrite G by exact H. reflexivity. }
  assert (E2 : skipn p r ++ [0%nat] = node_after p r :: skipn (S p) (r ++ [0%nat])).
  { unfold node_after. clear - H. revert p H. induction r as [|y t IH]; intros p H; destruct p; cbn in *; try lia; auto. rewrite IH by lia. reflexivity. }
  rewrite E1, E2. apply path_insert.
Qed.
Lemma insert_at_perm p c r : Permutation (insert_at p c r) (c :: r).
Proof. unfold insert_at. rewrite <- Permutation_middle, firstn_skipn. reflexivity. Qed.
