(** * Nearest neighbour construction: queues and seeds *)
From Verif Require Import Spec Spec_inter Spec_nn PyBase M_util M_psavings M_nn.
From Coq Require Import Sorting.Sorted.
Require Import ZifyBool ZifyNat Lia.

(** ** The queue is a double-ended queue *)
Definition pq_view (q : pq) : list (nat * Z) := firstn (pq_len q) (skipn (pq_left q) (pq_items q)).
Definition pq_wf (q : pq) : Prop := (pq_left q + pq_right q <= length (pq_items q))%nat.

Lemma view_length q : pq_wf q -> length (pq_view q) = pq_len q.
Proof. intros H. unfold pq_view, pq_wf, pq_len in *. rewrite firstn_length, skipn_length. lia. Qed.

Lemma skipn_nth {A} n (l : list A) x : nth_error l n = Some x -> skipn n l = x :: skipn (S n) l.
Proof. revert l. induction n as [|n IH]; intros [|y l] H; try discriminate; cbn in *; [now inversion H|]. now apply IH. Qed.

Lemma nth_error_skipn {A} n m (l : list A) : nth_error (skipn n l) m = nth_error l (n + m).
Proof. revert l. induction n as [|n IH]; intros [|x l]; cbn; auto. now destruct m. Qed.

Lemma popleft_view q : pq_wf q ->
  match pq_popleft q with
  | None => pq_view q = []
  | Some (x, q') => pq_wf q' /\ pq_view q = x :: pq_view q' /\ pq_peekleft q = Some x
  end.
Proof.
  intros H. assert (Hl := view_length q H). unfold pq_popleft, pq_peekleft. destruct (Nat.eqb_spec (pq_len q) 0) as [E|E].
  - rewrite E in Hl. now destruct (pq_view q).
  - destruct (nth_error (pq_items q) (pq_left q)) as [x|] eqn:En.
    + split; [unfold pq_wf, pq_len in *; cbn; lia|]. split; [|reflexivity]. unfold pq_view at 1. rewrite (skipn_nth _ _ _ En).
      destruct (pq_len q) as [|m] eqn:Em; [lia|]. cbn [firstn]. f_equal. unfold pq_view, pq_len in *. cbn. f_equal. lia.
    + apply nth_error_None in En. unfold pq_wf, pq_len in *. lia.
Qed.

Lemma peekleft_view q : pq_wf q -> pq_peekleft q = hd_error (pq_view q).
Proof.
  intros H. assert (Hp := popleft_view q H). unfold pq_popleft, pq_peekleft in *. destruct (Nat.eqb (pq_len q) 0); [now rewrite Hp|].
  destruct (nth_error (pq_items q) (pq_left q)) as [x|]; [destruct Hp as (_ & -> & _)|rewrite Hp]; reflexivity.
Qed.

Lemma popright_view q : pq_wf q ->
  match pq_popright q with
  | None => pq_view q = []
  | Some (x, q') => pq_wf q' /\ pq_view q = pq_view q' ++ [x] /\ pq_peekright q = Some x
  end.
Proof.
  intros H. assert (Hl := view_length q H). unfold pq_popright, pq_peekright. destruct (Nat.eqb_spec (pq_len q) 0) as [E|E].
  - rewrite E in Hl. now destruct (pq_view q).
  - destruct (nth_error (pq_items q) (length (pq_items q) - (pq_right q + 1))) as [x|] eqn:En.
    + split; [unfold pq_wf, pq_len in *; cbn; lia|]. split; [|reflexivity].
      set (m := (pq_len q - 1)%nat).
      assert (Em : pq_len q = S m) by lia.
      unfold pq_view. rewrite Em. replace (pq_len (mkpq (pq_items q) (pq_left q) (S (pq_right q)))) with m by (unfold pq_len in *; cbn; lia).
      cbn [pq_left pq_items].
      assert (Hn : nth_error (skipn (pq_left q) (pq_items q)) m = Some x).
      { rewrite nth_error_skipn. rewrite <- En. f_equal. unfold pq_len, pq_wf in *. lia. }
      clear - Hn. revert Hn. generalize (skipn (pq_left q) (pq_items q)) as l. revert x. induction m as [|m IH]; intros x [|y l] Hn; try discriminate.
      * cbn in Hn. inversion Hn. reflexivity.
      * cbn [nth_error] in Hn. apply IH in Hn. change (firstn (S (S m)) (y :: l)) with (y :: firstn (S m) l). rewrite Hn. reflexivity.
    + apply nth_error_None in En. unfold pq_wf, pq_len in *. lia.
Qed.

Lemma peekright_view q : pq_wf q -> pq_peekright q = match rev (pq_view q) with [] => None | x :: _ => Some x end.
Proof.
  intros H. assert (Hp := popright_view q H). unfold pq_popright, pq_peekright in *. destruct (Nat.eqb (pq_len q) 0); [now rewrite Hp|].
  destruct (nth_error _ _) as [x|]; [destruct Hp as (_ & -> & _); now rewrite rev_app_distr|rewrite Hp; reflexivity].
Qed.

Lemma get_view q i : pq_wf q -> pq_get q i = nth_error (pq_view q) i.
Proof.
  intros H. assert (Hl := view_length q H). unfold pq_get. destruct (pq_len q <=? i)%nat eqn:E.
  - symmetry. apply nth_error_None. lia.
  - unfold pq_view. rewrite <- nth_error_skipn. symmetry.
    assert (Hi : (i < pq_len q)%nat) by lia. revert Hi. generalize (pq_len q) as n, (skipn (pq_left q) (pq_items q)) as l. clear.
    intros n l. revert n i. induction l as [|x l IH]; intros [|n] i Hi; try lia; [now destruct i|]. destruct i as [|i]; [reflexivity|]. cbn. apply IH. lia.
Qed.

(** ** Sorting *)
Definition nlt (x y : nat * Z) : Prop := snd x < snd y \/ (snd x = snd y /\ (fst x < fst y)%nat).

Lemma nn_insert_in x l y : In y (nn_insert x l) <-> y = x \/ In y l.
Proof. induction l as [|z l IH]; cbn; [intuition|]. destruct (snd x <=? snd z); cbn; rewrite ?IH; intuition. Qed.
Lemma nn_sort_in l y : In y (nn_sort l) <-> In y l.
Proof. induction l as [|x l IH]; cbn; [tauto|]. rewrite nn_insert_in, IH. intuition. Qed.
Lemma nlt_trans x y z : nlt x y -> nlt y z -> nlt x z.
Proof. unfold nlt. lia. Qed.

Lemma nn_insert_sorted x l : Forall (fun y => (fst x < fst y)%nat) l -> StronglySorted nlt l -> StronglySorted nlt (nn_insert x l).
Proof.
  intros Hx Hs. induction Hs as [|y l Hs IH Hy]; [repeat constructor|]. inversion Hx as [|? ? Hxy Hxl]; subst. cbn.
  destruct (Z.leb_spec (snd x) (snd y)) as [Hle|Hgt].
  - assert (Hn : nlt x y) by (unfold nlt; lia). constructor; [now constructor|]. constructor; [exact Hn|].
    eapply Forall_impl; [|exact Hy]. intros z Hz. eapply nlt_trans; eauto.
  - constructor; [now apply IH|]. apply Forall_forall. intros z Hz. apply nn_insert_in in Hz as [->|Hz].
    + unfold nlt. lia.
    + rewrite Forall_forall in Hy. now apply Hy.
Qed.

Lemma nn_sort_sorted (g : nat -> Z) a n : StronglySorted nlt (nn_sort (map (fun j => (j, g j)) (seq a n))).
Proof.
  revert a. induction n as [|n IH]; intros a; [constructor|]. cbn [seq map nn_sort fold_right]. apply nn_insert_sorted; [|apply IH].
  apply Forall_forall. intros y Hy. change (In y (nn_sort (map (fun j => (j, g j)) (seq (S a) n)))) in Hy. rewrite nn_sort_in in Hy. apply in_map_iff in Hy as (j & <- & Hj). apply in_seq in Hj. cbn. lia.
Qed.

Section NN.
Variable N : nat.
Variable D : matrix.

(** What a queue of node [i] is good for: it has every free customer but [i], in order. *)
Definition qok (F : nat -> Prop) (i : nat) (q : pq) : Prop :=
  pq_wf q /\ StronglySorted nlt (pq_view q) /\
  (forall x, In x (pq_view q) -> (fst x < N)%nat /\ fst x <> i /\ snd x = D i (fst x)) /\
  (forall j, F j -> j <> i -> In (j, D i j) (pq_view q)).

Lemma qok_init (F : nat -> Prop) i : self_first N D -> (i < N)%nat -> (forall j, F j -> (j < N)%nat) -> qok F i (nn_queue N D i).
Proof.
  intros Hself Hi HF. set (l := nn_sort (map (fun j => (j, D i j)) (range 0 N))).
  assert (Hs : StronglySorted nlt l) by (unfold l, range; apply nn_sort_sorted).
  assert (Hin : forall x, In x l <-> (fst x < N)%nat /\ snd x = D i (fst x)).
  { intros [j v]. unfold l. rewrite nn_sort_in, in_map_iff. unfold range. rewrite Nat.sub_0_r. split.
    - intros (j' & E & Hj). apply in_seq in Hj. inversion E; subst. cbn. lia.
    - cbn. intros [Hj ->]. exists j. split; [reflexivity|]. apply in_seq. lia. }
  assert (Hhd : exists t, l = (i, D i i) :: t).
  { destruct l as [|[j v] t] eqn:E; [destruct (proj2 (Hin (i, D i i))); cbn; auto|]. destruct (Nat.eq_dec j i) as [->|Hne].
    - exists t. f_equal. f_equal. now apply (Hin (i, v)); left.
    - exfalso. assert (Hj : (j < N)%nat /\ v = D i j) by (apply (Hin (j, v)); now left). destruct Hj as [Hj ->].
      assert (Hi' : In (i, D i i) t) by (destruct (proj2 (Hin (i, D i i))) as [H|H]; [cbn; auto|congruence|exact H]).
      inversion Hs as [|? ? _ Hall]; subst. rewrite Forall_forall in Hall. specialize (Hall _ Hi').
      destruct (Hself i j Hi Hj) as [H|[H1 H2]]; [congruence| |]; unfold nlt in Hall; cbn in Hall; lia. }
  destruct Hhd as (t & Ht).
  assert (Hv : pq_view (nn_queue N D i) = t).
  { unfold pq_view, pq_len, nn_queue. cbn [pq_items pq_left pq_right]. fold l. rewrite Ht. cbn [skipn length].
    replace (S (length t) - 1 - 0)%nat with (length t) by lia. apply firstn_all. }
  rewrite Ht in Hs. apply StronglySorted_inv in Hs as [Hst Hall].
  split; [unfold pq_wf, nn_queue; cbn; fold l; rewrite Ht; cbn; lia|]. rewrite Hv. split; [exact Hst|]. split.
  - intros x Hx. assert (Hx' : In x l) by (rewrite Ht; now right). apply Hin in Hx' as [H1 H2]. split; [exact H1|]. split; [|exact H2].
    intros E. rewrite Forall_forall in Hall. specialize (Hall x Hx). unfold nlt in Hall. cbn in Hall. rewrite H2, E in Hall. lia.
  - intros j Hj Hne. assert (Hjl : In (j, D i j) l) by (apply Hin; cbn; auto). rewrite Ht in Hjl. destruct Hjl as [E|H]; [congruence|exact H].
Qed.

Lemma qok_weaken (F F' : nat -> Prop) i q : (forall j, F' j -> F j) -> qok F i q -> qok F' i q.
Proof. intros H (H1 & H2 & H3 & H4). repeat split; auto; apply H3; assumption. Qed.

(** Dropping an element that is not free. *)
Lemma qok_pop F i q x q' : qok F i q -> pq_popleft q = Some (x, q') -> (~ F (fst x) \/ fst x = i) -> qok F i q'.
Proof.
  intros (Hw & Hs & Hin & Hc) Hp Hx. assert (Hv := popleft_view q Hw). rewrite Hp in Hv. destruct Hv as (Hw' & Ev & _).
  rewrite Ev in *. inversion Hs as [|? ? Hs' Hall]; subst. split; [exact Hw'|]. split; [exact Hs'|]. split.
  - intros y Hy. apply Hin. now right.
  - intros j Hj Hne. destruct (Hc j Hj Hne) as [E|H]; [|exact H]. subst x. cbn in Hx. tauto.
Qed.
Lemma qok_popr F i q x q' : qok F i q -> pq_popright q = Some (x, q') -> (~ F (fst x) \/ fst x = i) -> qok F i q'.
Proof.
  intros (Hw & Hs & Hin & Hc) Hp Hx. assert (Hv := popright_view q Hw). rewrite Hp in Hv. destruct Hv as (Hw' & Ev & _).
  rewrite Ev in *. split; [exact Hw'|]. split; [|split].
  - clear - Hs. induction (pq_view q') as [|y l IH]; [constructor|]. cbn in Hs. inversion Hs as [|? ? H1 H2]; subst. constructor; [now apply IH|].
    apply Forall_app in H2. apply H2.
  - intros y Hy. apply Hin. apply in_or_app. now left.
  - intros j Hj Hne. specialize (Hc j Hj Hne). apply in_app_iff in Hc as [H|[E|[]]]; [exact H|]. subst x. cbn in Hx. tauto.
Qed.

Variable F : nat -> Prop.
Variable served : nat -> bool.
Hypothesis HS : forall i, (i < N)%nat -> served i = false <-> F i.

Lemma qok_nodup i q x l : qok F i q -> pq_view q = x :: l -> forall y, In y l -> snd x <= snd y.
Proof. intros (_ & Hs & _) E y Hy. rewrite E in Hs. inversion Hs as [|? ? _ Hall]; subst. rewrite Forall_forall in Hall. specialize (Hall y Hy). unfold nlt in Hall. lia. Qed.

(** A node nearest to [i] among the free ones. *)
Definition best_for (i j : nat) : Prop := F j /\ j <> i /\ forall x, F x -> x <> i -> D i j <= D i x.

Lemma head_best i q x l : qok F i q -> pq_view q = x :: l -> served (fst x) = false -> best_for i (fst x) /\ x = (fst x, D i (fst x)).
Proof.
  intros Hq E Hx. assert (Hmin := qok_nodup i q x l Hq E). destruct Hq as (_ & _ & Hin & Hc). rewrite E in *.
  destruct (Hin x) as (H1 & H2 & H3); [now left|]. split; [|destruct x; cbn in *; congruence]. split; [now apply HS|]. split; [exact H2|].
  intros y Hy Hne. destruct (Hc y Hy Hne) as [->|Hi]; [cbn; lia|]. specialize (Hmin _ Hi). cbn in Hmin. lia.
Qed.

Lemma not_free x : (x < N)%nat -> served x = true -> ~ F x.
Proof. intros Hx H Hf. apply HS in Hf; [congruence|exact Hx]. Qed.

Lemma next_unserved_spec i n q : qok F i q -> (length (pq_view q) < n)%nat ->
  match next_unserved served n q with
  | None => forall j, F j -> j = i
  | Some (nn, q') => best_for i nn /\ qok F i q' /\ exists l, pq_view q' = (nn, D i nn) :: l
  end.
Proof.
  revert q. induction n as [|n IH]; intros q Hq Hn; [lia|]. cbn. assert (Hv := popleft_view q (proj1 Hq)).
  destruct (pq_popleft q) as [[x q']|] eqn:Ep.
  - destruct Hv as (Hw' & Ev & _). destruct (served (fst x)) eqn:Es.
    + assert (Hx : (fst x < N)%nat) by (apply Hq; rewrite Ev; now left).
      apply IH; [|rewrite Ev in Hn; cbn in Hn; lia]. eapply qok_pop; [exact Hq|exact Ep|]. left. now apply not_free.
    + destruct (head_best i q x (pq_view q') Hq Ev Es) as [Hb Ex]. split; [exact Hb|]. split; [exact Hq|]. exists (pq_view q'). rewrite Ev. f_equal. exact Ex.
  - destruct Hq as (_ & _ & _ & Hc). intros j Hj. destruct (Nat.eq_dec j i) as [E|Hne]; [exact E|]. specialize (Hc j Hj Hne). rewrite Hv in Hc. destruct Hc.
Qed.

Lemma seed_popleft_spec n q : qok F 0 q -> (length (pq_view q) < n)%nat -> ~ F 0%nat ->
  match seed_pop pq_popleft served n q with
  | None => forall j, ~ F j
  | Some (s, q') => F s /\ depot_closest D F s /\ qok (fun j => F j /\ j <> s) 0 q'
  end.
Proof.
  intros Hq Hn H0. revert q Hq Hn. induction n as [|n IH]; intros q Hq Hn; [lia|]. cbn. assert (Hv := popleft_view q (proj1 Hq)).
  destruct (pq_popleft q) as [[x q']|] eqn:Ep.
  - destruct Hv as (Hw' & Ev & _). destruct (served (fst x)) eqn:Es.
    + assert (Hx : (fst x < N)%nat) by (apply Hq; rewrite Ev; now left).
      apply IH; [|rewrite Ev in Hn; cbn in Hn; lia]. eapply qok_pop; [exact Hq|exact Ep|]. left. now apply not_free.
    + destruct (head_best 0 q x (pq_view q') Hq Ev Es) as [(Hb1 & Hb2 & Hb3) Ex]. split; [exact Hb1|]. split.
      * intros y Hy. apply Hb3; [exact Hy|]. intros ->. contradiction.
      * eapply qok_pop; [|exact Ep|left; tauto]. eapply qok_weaken; [|exact Hq]. intros j Hj. apply Hj.
  - destruct Hq as (_ & _ & _ & Hc). intros j Hj. destruct (Nat.eq_dec j 0) as [->|Hne]; [contradiction|]. specialize (Hc j Hj Hne). rewrite Hv in Hc. destruct Hc.
Qed.

Lemma sorted_last l x : StronglySorted nlt (l ++ [x]) -> forall y, In y l -> snd y <= snd x.
Proof.
  intros Hs y Hy. induction l as [|z l IH]; [destruct Hy|]. cbn in Hs. inversion Hs as [|? ? H1 H2]; subst. destruct Hy as [->|Hy]; [|now apply IH].
  rewrite Forall_app in H2. destruct H2 as [_ H2]. inversion H2 as [|? ? H3 _]; subst. unfold nlt in H3. lia.
Qed.

Lemma seed_popright_spec n q : qok F 0 q -> (length (pq_view q) < n)%nat -> ~ F 0%nat ->
  match seed_pop pq_popright served n q with
  | None => forall j, ~ F j
  | Some (s, q') => F s /\ depot_farthest D F s /\ qok (fun j => F j /\ j <> s) 0 q'
  end.
Proof.
  intros Hq Hn H0. revert q Hq Hn. induction n as [|n IH]; intros q Hq Hn; [lia|]. cbn. assert (Hv := popright_view q (proj1 Hq)).
  destruct (pq_popright q) as [[x q']|] eqn:Ep.
  - destruct Hv as (Hw' & Ev & _).
    assert (Hx : (fst x < N)%nat) by (apply Hq; rewrite Ev; apply in_or_app; right; now left).
    destruct (served (fst x)) eqn:Es.
    + apply IH; [|rewrite Ev, app_length in Hn; cbn in Hn; lia]. eapply qok_popr; [exact Hq|exact Ep|]. left. now apply not_free.
    + split; [now apply HS|]. split.
      * intros y Hy. destruct Hq as (_ & Hs & Hin & Hc). assert (Hy0 : y <> 0%nat) by (intros ->; contradiction).
        specialize (Hc y Hy Hy0). rewrite Ev in *. destruct (Hin x) as (_ & _ & E); [apply in_or_app; right; now left|].
        rewrite <- E. apply in_app_iff in Hc as [Hi|[Ey|[]]]; [exact (sorted_last _ _ Hs _ Hi)|]. subst x. cbn. lia.
      * eapply qok_popr; [|exact Ep|left; tauto]. eapply qok_weaken; [|exact Hq]. intros j Hj. apply Hj.
  - destruct Hq as (_ & _ & _ & Hc). intros j Hj. destruct (Nat.eq_dec j 0) as [->|Hne]; [contradiction|]. specialize (Hc j Hj Hne). rewrite Hv in Hc. destruct Hc.
Qed.

Lemma seed_drop_spec i n q nr : qok F i q -> F i -> (i < N)%nat -> (length (pq_view q) < n)%nat ->
  let '(q', nr') := seed_drop served i n q nr in
  qok F i q' /\
  (forall x, F x -> x <> i -> exists j, nr' = Some j /\ best_for i j) /\
  (nr <> None \/ pq_view q <> [] -> nr' <> None).
Proof.
  intros Hq Hi HiN. assert (Esi : served i = false) by (apply HS; assumption).
  revert q nr Hq. induction n as [|n IH]; intros q nr Hq Hn; [lia|]. cbn [seed_drop]. rewrite Esi. cbn [negb andb].
  assert (Hlen := view_length q (proj1 Hq)). assert (Hv := popleft_view q (proj1 Hq)).
  destruct (0 <? pq_len q)%nat eqn:El.
  - destruct (pq_popleft q) as [[x q']|] eqn:Ep.
    + destruct Hv as (Hw' & Ev & _). destruct (served (fst x)) eqn:Es.
      * assert (Hx : (fst x < N)%nat) by (apply Hq; rewrite Ev; now left).
        specialize (IH q' (Some (fst x))). destruct (seed_drop served i n q' (Some (fst x))) as [q'' nr''].
        destruct IH as (H1 & H2 & H3); [eapply qok_pop; [exact Hq|exact Ep|]; left; now apply not_free|rewrite Ev in Hn; cbn in Hn; lia|].
        split; [exact H1|]. split; [exact H2|]. intros _. apply H3. left. discriminate.
      * destruct (head_best i q x (pq_view q') Hq Ev Es) as [Hb Ex]. split; [exact Hq|]. split; [|discriminate].
        intros _ _ _. exists (fst x). auto.
    + rewrite Hv in Hlen. cbn in Hlen. lia.
  - assert (E : pq_view q = []) by (destruct (pq_view q); [reflexivity|cbn in Hlen; lia]).
    split; [exact Hq|]. split; [|tauto]. intros x Hx Hne. destruct Hq as (_ & _ & _ & Hc). specialize (Hc x Hx Hne). rewrite E in Hc. destruct Hc.
Qed.

(** The scan for the closest pair; [P] are the nodes looked at. *)
Lemma seed_scan_spec is P seed nr dist q :
  (forall i, In i is -> (1 <= i < N)%nat) ->
  (forall i, (i < N)%nat -> qok F i (q i)) ->
  (nr <> None \/ forall i, In i is -> F i -> pq_view (q i) <> []) ->
  match seed with
  | None => dist = None /\ forall a, In a P -> ~ F a
  | Some s => F s /\ ((exists x, F x /\ x <> s) ->
      exists t, F t /\ t <> s /\ dist = Some (D s t) /\ forall a b, In a P -> F a -> F b -> b <> a -> D s t <= D a b)
  end ->
  match seed_scan D served is seed nr dist q with
  | Seed s q' => F s /\ (forall i, (i < N)%nat -> qok F i (q' i)) /\
      ((exists x, F x /\ x <> s) -> exists t, F t /\ t <> s /\ forall a b, In a (P ++ is) -> F a -> F b -> b <> a -> D s t <= D a b)
  | NoSeed => False
  | SeedTypeError => forall a, In a (P ++ is) -> ~ F a
  | SeedUnbound => False
  end.
Proof.
  revert P seed nr dist q. induction is as [|i is IH]; intros P seed nr dist q His Hq Hnr Hinv; cbn [seed_scan].
  - rewrite app_nil_r. destruct seed as [s|]; [|apply Hinv]. destruct Hinv as [H1 H2]. split; [exact H1|]. split; [exact Hq|].
    intros Hx. destruct (H2 Hx) as (t & A & B & _ & E). exists t. auto.
  - assert (HiN : (1 <= i < N)%nat) by (apply His; now left).
    replace (P ++ i :: is) with ((P ++ [i]) ++ is) by (rewrite <- app_assoc; reflexivity).
    destruct (served i) eqn:Es.
    + apply IH.
      * intros j Hj. apply His. now right.
      * exact Hq.
      * destruct Hnr as [H|H]; [now left|right]. intros j Hj. apply H. now right.
      * assert (Hnf : ~ F i) by (apply not_free; [lia|exact Es]). destruct seed as [s|].
        -- destruct Hinv as [H1 H2]. split; [exact H1|]. intros Hx. destruct (H2 Hx) as (t & A & B & E & G). exists t. repeat split; auto.
           intros a b Ha. apply in_app_iff in Ha as [Ha|[->|[]]]; [now apply G|contradiction].
        -- destruct Hinv as [H1 H2]. split; [exact H1|]. intros a Ha. apply in_app_iff in Ha as [Ha|[->|[]]]; [now apply H2|exact Hnf].
    + assert (Hfi : F i) by (apply HS; [lia|exact Es]).
      assert (Hd := seed_drop_spec i (S (pq_len (q i))) (q i) nr (Hq i ltac:(lia)) Hfi ltac:(lia)).
      destruct (seed_drop served i (S (pq_len (q i))) (q i) nr) as [qi nr1].
      destruct Hd as (Hqi & Hbest & Hsome); [rewrite view_length by apply (Hq i ltac:(lia)); lia|].
      destruct nr1 as [j|].
      2:{ apply Hsome; [|reflexivity]. destruct Hnr as [H|H]; [now left|right]. apply H; [now left|exact Hfi]. }
      assert (Hq' : forall k, (k < N)%nat -> qok F k (upd q i qi k)).
      { intros k Hk. unfold upd. destruct (Nat.eqb_spec k i) as [->|]; [exact Hqi|now apply Hq]. }
      destruct (match dist with Some x => D i j <? x | None => true end) eqn:Ec.
      * apply IH; [intros k Hk; apply His; now right|exact Hq'|left; discriminate|].
        split; [exact Hfi|]. intros (x & Hx & Hne). destruct (Hbest x Hx Hne) as (j' & Ej & Hj1 & Hj2 & Hj3). injection Ej as <-.
        exists j. repeat split; auto. intros a b Ha Hfa Hfb Hab. apply in_app_iff in Ha as [Ha|[->|[]]]; [|now apply Hj3].
        destruct seed as [s0|]; [|exfalso; now apply (proj2 Hinv a Ha)].
        destruct Hinv as [H1 H2]. assert (Ho : exists x, F x /\ x <> s0) by (destruct (Nat.eq_dec i s0) as [<-|Hs0]; [exists x|exists i]; auto).
        destruct (H2 Ho) as (t & A & B & E & G). rewrite E in Ec. specialize (G a b Ha Hfa Hfb Hab). lia.
      * destruct dist as [x0|]; [|discriminate]. destruct seed as [s0|]; [|destruct Hinv; discriminate].
        apply IH; [intros k Hk; apply His; now right|exact Hq'|left; discriminate|].
        destruct Hinv as [H1 H2]. split; [exact H1|]. intros Ho. destruct (H2 Ho) as (t & A & B & E & G). exists t. repeat split; auto.
        injection E as ->. intros a b Ha Hfa Hfb Hab. apply in_app_iff in Ha as [Ha|[->|[]]]; [now apply G|].
        destruct (Hbest b Hfb Hab) as (j' & Ej & Hj1 & Hj2 & Hj3). injection Ej as <-. specialize (Hj3 b Hfb Hab). lia.
Qed.
End NN.
