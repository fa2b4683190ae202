(** * Tyagi's grouping: queues into which customers are put back, and the interchange *)
From Verif Require Import Spec Spec_inter Spec_nn Spec_tyagi PyBase M_util M_psavings M_nn M_tyagi P_base P_nn P_nn2.
From Coq Require Import Sorted.
Require Import ZifyBool ZifyNat Lia.

(** ** Queues *)
Section Queues.
Variable N : nat.
Variable D : matrix.

(** [srt]: the queue is still sorted. *)
Definition qi (srt : Prop) (F : nat -> Prop) (i : nat) (q : pq) : Prop :=
  pq_wf q /\ pq_right q = 0%nat /\ (srt -> StronglySorted nlt (pq_view q)) /\
  (forall x, In x (pq_view q) -> (fst x < N)%nat /\ snd x = D i (fst x)) /\
  (forall j, F j -> j <> i -> In (j, D i j) (pq_view q)).

Lemma qi_init (F : nat -> Prop) i srt : self_first N D -> (i < N)%nat -> (forall j, F j -> (j < N)%nat) -> qi srt F i (nn_queue N D i).
Proof.
  intros Hs Hi HF. destruct (qok_init N D F i Hs Hi HF) as (H1 & H2 & H3 & H4). split; [exact H1|]. split; [reflexivity|]. split; [auto|]. split; [|exact H4].
  intros x Hx. destruct (H3 x Hx) as (A & B & E). auto.
Qed.

Lemma qi_weaken (srt srt' : Prop) (F F' : nat -> Prop) i q : (srt' -> srt) -> (forall j, j <> i -> F' j -> F j) -> qi srt F i q -> qi srt' F' i q.
Proof. intros Hs H (H1 & H2 & H3 & H4 & H5). repeat split; auto; apply H4; assumption. Qed.

Lemma popleft_fields q x q' : pq_popleft q = Some (x, q') ->
  nth_error (pq_items q) (pq_left q) = Some x /\ q' = mkpq (pq_items q) (S (pq_left q)) (pq_right q).
Proof. unfold pq_popleft. destruct (Nat.eqb (pq_len q) 0); [discriminate|]. destruct (nth_error _ _) as [y|]; [|discriminate]. intros H. now inversion H. Qed.

Lemma qi_pop srt F i q x q' : qi srt F i q -> pq_popleft q = Some (x, q') -> (~ F (fst x) \/ fst x = i) -> qi srt F i q'.
Proof.
  intros (Hw & Hr & Hs & Hin & Hc) Hp Hx. assert (Hv := popleft_view q Hw). rewrite Hp in Hv. destruct Hv as (Hw' & Ev & _).
  destruct (popleft_fields _ _ _ Hp) as [_ E]. split; [exact Hw'|]. split; [now subst q'|]. rewrite Ev in *. split; [|split].
  - intros H. specialize (Hs H). now inversion Hs.
  - intros y Hy. apply Hin. now right.
  - intros j Hj Hne. destruct (Hc j Hj Hne) as [->|H]; [cbn in Hx; tauto|exact H].
Qed.

Section Free.
Variable F : nat -> Prop.
Variable served : nat -> bool.
Hypothesis HS : forall i, (i < N)%nat -> served i = false <-> F i.

Lemma sorted_min (l : list (nat * Z)) x : StronglySorted nlt (x :: l) -> forall y, In y (x :: l) -> snd x <= snd y.
Proof. intros H y [->|Hy]; [lia|]. inversion H as [|? ? _ Ha]; subst. rewrite Forall_forall in Ha. specialize (Ha y Hy). unfold nlt in Ha. lia. Qed.

Lemma next_unserved_qi srt i n q : qi srt F i q -> (length (pq_view q) < n)%nat ->
  match next_unserved served n q with
  | None => forall j, F j -> j = i
  | Some (nn, q') => F nn /\ (srt -> forall x, F x -> x <> i -> D i nn <= D i x) /\ qi srt F i q' /\ exists l, pq_view q' = (nn, D i nn) :: l
  end.
Proof.
  revert q. induction n as [|n IH]; intros q Hq Hn; [lia|]. cbn. assert (Hv := popleft_view q (proj1 Hq)).
  destruct (pq_popleft q) as [[x q']|] eqn:Ep.
  - destruct Hv as (Hw' & Ev & _). assert (Hq0 := Hq). destruct Hq as (Hw & Hr & Hs & Hin & Hc). destruct (Hin x ltac:(rewrite Ev; now left)) as [Hx1 Hx2].
    destruct (served (fst x)) eqn:Es.
    + apply IH; [|rewrite Ev in Hn; cbn in Hn; lia]. eapply qi_pop; [exact Hq0|exact Ep|]. left. intros HF. apply HS in HF; [congruence|exact Hx1].
    + split; [now apply HS|]. split; [|split].
      * intros Hsrt y Hy Hne. specialize (Hc y Hy Hne). specialize (Hs Hsrt). rewrite Ev in Hs, Hc. assert (H := sorted_min _ _ Hs _ Hc). cbn in H. lia.
      * exact Hq0.
      * exists (pq_view q'). rewrite Ev. f_equal. destruct x. cbn in *. congruence.
  - destruct Hq as (_ & _ & _ & _ & Hc). intros j Hj. destruct (Nat.eq_dec j i) as [E|Hne]; [exact E|]. specialize (Hc j Hj Hne). rewrite Hv in Hc. destruct Hc.
Qed.

Lemma seed_popleft_qi srt n q : qi srt F 0 q -> (length (pq_view q) < n)%nat -> ~ F 0%nat ->
  match seed_pop pq_popleft served n q with
  | None => forall j, ~ F j
  | Some (s, q') => F s /\ (srt -> forall x, F x -> D 0%nat s <= D 0%nat x) /\ qi srt (fun j => F j /\ j <> s) 0 q' /\
      exists p e, pq_left q' = S p /\ nth_error (pq_items q') p = Some e /\ snd e = D 0%nat s
  end.
Proof.
  intros Hq Hn H0. revert q Hq Hn. induction n as [|n IH]; intros q Hq Hn; [lia|]. cbn. assert (Hv := popleft_view q (proj1 Hq)).
  destruct (pq_popleft q) as [[x q']|] eqn:Ep.
  - destruct Hv as (Hw' & Ev & _). assert (Hq0 := Hq). destruct Hq0 as (Hw & Hr & Hs & Hin & Hc). destruct (Hin x ltac:(rewrite Ev; now left)) as [Hx1 Hx2].
    destruct (served (fst x)) eqn:Es.
    + apply IH; [|rewrite Ev in Hn; cbn in Hn; lia]. eapply qi_pop; [exact Hq|exact Ep|]. left. intros HF. apply HS in HF; [congruence|exact Hx1].
    + split; [now apply HS|]. split; [|split].
      * intros Hsrt y Hy. assert (Hne : y <> 0%nat) by (intros ->; contradiction). specialize (Hc y Hy Hne). specialize (Hs Hsrt). rewrite Ev in Hs, Hc. assert (H := sorted_min _ _ Hs _ Hc). cbn in H. lia.
      * eapply qi_pop; [|exact Ep|left; tauto]. eapply qi_weaken; [| |exact Hq]; [auto|]. intros j _ Hj. apply Hj.
      * destruct (popleft_fields _ _ _ Ep) as [E1 E2]. subst q'. exists (pq_left q), x. cbn. auto.
  - destruct Hq as (_ & _ & _ & _ & Hc). intros j Hj. destruct (Nat.eq_dec j 0) as [->|Hne]; [contradiction|]. specialize (Hc j Hj Hne). rewrite Hv in Hc. destruct Hc.
Qed.
End Free.

(** Putting a customer back. *)
Lemma nth_error_set {A} p (x : A) l : (p < length l)%nat -> PyBase.set_nth p x l = firstn p l ++ x :: skipn (S p) l.
Proof. revert l. induction p as [|p IH]; intros [|y l] H; cbn in H; try lia; [reflexivity|]. cbn. f_equal. apply IH. lia. Qed.

Lemma push_back_qi srt F i x q : qi srt F i q -> (x < N)%nat ->
  (F x \/ exists p e, pq_left q = S p /\ nth_error (pq_items q) p = Some e /\ snd e <= D i x) ->
  qi False (fun j => F j \/ j = x) i (push_back x (D i x) q).
Proof.
  intros (Hw & Hr & _ & Hin & Hc) Hx Hcase. unfold push_back. rewrite Hr.
  assert (Hsame : F x -> qi False (fun j => F j \/ j = x) i q).
  { intros HF. split; [exact Hw|]. split; [exact Hr|]. split; [easy|]. split; [exact Hin|]. intros j [Hj| ->] Hne; auto. }
  destruct (pq_left q) as [|p] eqn:El.
  - apply Hsame. destruct Hcase as [H|(p & e & E & _)]; [exact H|discriminate].
  - assert (Hp : (p < length (pq_items q))%nat) by (unfold pq_wf in Hw; lia).
    destruct (nth_error (pq_items q) p) as [e|] eqn:Ee.
    2:{ apply nth_error_None in Ee. lia. }
    destruct (Z.leb_spec (snd e) (D i x)) as [Hle|Hgt].
    + assert (Ev : pq_view (mkpq (PyBase.set_nth p (x, D i x) (pq_items q)) p 0) = (x, D i x) :: pq_view q).
      { unfold pq_view, pq_len. cbn [pq_items pq_left pq_right]. rewrite El, Hr, nth_error_set by exact Hp.
        assert (Hl : length (firstn p (pq_items q)) = p) by (rewrite firstn_length; lia).
        assert (Hs : length (skipn (S p) (pq_items q)) = (length (pq_items q) - S p)%nat) by apply skipn_length.
        set (T := skipn (S p) (pq_items q)) in *. clearbody T.
        rewrite skipn_app, Hl, Nat.sub_diag, (skipn_all2 (firstn p _)) by lia. cbn [skipn app].
        rewrite !firstn_all2; [reflexivity|lia|]. rewrite app_length, Hl. cbn [length]. rewrite Hs. lia. }
      split; [unfold pq_wf; cbn [pq_items pq_left pq_right]; rewrite nth_error_set by exact Hp; rewrite app_length, firstn_length; cbn [length]; rewrite skipn_length; lia|].
      split; [reflexivity|]. split; [easy|]. rewrite Ev. split.
      * intros y [<-|Hy]; [now split|auto].
      * intros j Hj Hne. destruct (Nat.eq_dec j x) as [->|Hjx]; [now left|]. right. apply Hc; [|exact Hne]. tauto.
    + apply Hsame. destruct Hcase as [H|(p' & e' & E & E' & Hle)]; [exact H|]. injection E as <-. rewrite Ee in E'. injection E' as <-. lia.
Qed.
End Queues.

(** ** The interchange *)
Lemma is_set_limit C : is_set C = true <-> limit_set C.
Proof. unfold is_set, limit_set, truthy. destruct C as [c|]; [|easy]. destruct (Z.eqb_spec c 0); intuition congruence. Qed.

Section Interchange.
Variable D : matrix.
Variable d : demands.
Variables C L : limit.
Variables ceps seps : Z.
Variable try_all : bool.
Notation ok := (interchange_ok ceps seps D d C L).
Notation feas := (feasible D d C L ceps seps).

Lemma cost_pivot a b (x : nat) : route_cost D (a ++ x :: b) =
  path_cost D (0%nat :: a) + D (last a 0%nat) x + D x (hd 0%nat b) + path_cost D (b ++ [0%nat]).
Proof.
  unfold route_cost. change (0%nat :: (a ++ x :: b) ++ [0%nat]) with ((0%nat :: a) ++ x :: b ++ [0%nat]) || idtac.
  replace (0%nat :: (a ++ x :: b) ++ [0%nat]) with ((0%nat :: a) ++ (x :: b ++ [0%nat])) by (cbn; now rewrite <- app_assoc).
  rewrite path_cost_app by discriminate. cbn [hd].
  replace (last (0%nat :: a) 0%nat) with (last a 0%nat) by (destruct a; reflexivity).
  rewrite (path_cost_front D (b ++ [0%nat]) x) by (destruct b; discriminate).
  replace (hd 0%nat (b ++ [0%nat])) with (hd 0%nat b) by (destruct b; reflexivity). lia.
Qed.

Lemma at_position r p : (p < length r)%nat ->
  exists a b, r = a ++ nth p r 0%nat :: b /\ length a = p /\ a = firstn p r /\ b = skipn (S p) r /\
    node_before r p = last a 0%nat /\ node_after r p = hd 0%nat b.
Proof.
  intros H. destruct (nth_split r 0%nat H) as (a & b & E & Hl). exists a, b. set (x := nth p r 0%nat) in *. clearbody x. subst r. split; [reflexivity|]. split; [exact Hl|]. subst p.
  split; [rewrite firstn_app, Nat.sub_diag, firstn_all2 by lia; cbn; now rewrite app_nil_r|].
  split; [replace (a ++ x :: b) with ((a ++ [x]) ++ b) by (now rewrite <- app_assoc); rewrite skipn_app, skipn_all2 by (rewrite app_length; cbn; lia); rewrite app_length; cbn [length app]; replace (S (length a) - (length a + 1))%nat with 0%nat by lia; reflexivity|].
  split.
  - unfold node_before. destruct a as [|y a _] using rev_ind; [reflexivity|]. rewrite app_length. cbn [length]. rewrite Nat.add_1_r. rewrite <- app_assoc, app_nth2 by lia. rewrite Nat.sub_diag, last_last. reflexivity.
  - unfold node_after. rewrite app_nth2 by lia. replace (S (length a) - length a)%nat with 1%nat by lia. destruct b; reflexivity.
Qed.

Lemma interchange_ok_spec r a b x y rd rl :
  r = a ++ x :: b -> (limit_set C -> rd = demand d r) -> (limit_set L -> rl = route_cost D r) ->
  ok r rd rl y (length a) = true <-> feas (a ++ y :: b) /\ better D d C L r (a ++ y :: b).
Proof.
  intros E Hd Hl. unfold interchange_ok.
  assert (Hp : (length a < length r)%nat) by (subst r; rewrite app_length; cbn; lia).
  destruct (at_position r _ Hp) as (a' & b' & E' & Hla & Ea & Eb & Hbef & Haft).
  assert (Ex : nth (length a) r 0%nat = x) by (subst r; rewrite app_nth2, Nat.sub_diag by lia; reflexivity).
  assert (a' = a) by (rewrite Ea; subst r; rewrite firstn_app, Nat.sub_diag, firstn_all2 by lia; cbn; now rewrite app_nil_r).
  assert (b' = b).
  { rewrite Ex, H in E'. rewrite E in E'. apply app_inv_head in E'. now injection E'. }
  clear Ea Eb E' Hla. subst a' b'. rewrite Hbef, Haft, Ex.
  set (dd := - d x + d y). set (ld := _ - _ + _ + _).
  assert (Edd : demand d (a ++ y :: b) = demand d r + dd).
  { subst r dd. unfold demand. rewrite !map_app, !sumZ_app. cbn [map]. rewrite !sumZ_cons. lia. }
  assert (Eld : route_cost D (a ++ y :: b) = route_cost D r + ld).
  { subst r ld. rewrite !cost_pivot. lia. }
  rewrite !andb_true_iff, !negb_true_iff, !exceeds_within, orb_true_iff, !andb_true_iff, negb_true_iff, Z.ltb_lt, Z.ltb_lt.
  unfold feasible, better. rewrite Edd, Eld.
  assert (HC : within C ceps (rd + dd) <-> within C ceps (demand d r + dd)) by (apply within_cong; intros H1; rewrite Hd; [reflexivity|now apply is_set_limit]).
  assert (HL : within L seps (rl + ld) <-> within L seps (route_cost D r + ld)) by (apply within_cong; intros H1; rewrite Hl; [reflexivity|now apply is_set_limit]).
  assert (HnC : is_set C = false <-> ~ limit_set C) by (rewrite <- is_set_limit; destruct (is_set C); intuition congruence).
  rewrite HC, HL, !is_set_limit, HnC. split.
  - intros [[H1 H2] [[H3 H4]|[[H3 H4] H5]]]; (split; [now split|]); [left|right]; (split; [assumption|]); try (split; [assumption|]); lia.
  - intros [[H1 H2] H]. split; [now split|]. destruct H as [[H3 H4]|(H3 & H4 & H5)]; [left|right]; [split; [assumption|lia]|split; [now split|lia]].
Qed.

(** The last candidate that passes is taken. *)
Lemma last_found {A} (f : A -> bool) l acc :
  match fold_left (fun acc p => if f p then Some p else acc) l acc with
  | None => acc = None /\ forall p, In p l -> f p = false
  | Some p => (In p l /\ f p = true) \/ acc = Some p
  end.
Proof.
  revert acc. induction l as [|x l IH]; intros acc; cbn [fold_left]; [destruct acc; [now right|easy]|].
  specialize (IH (if f x then Some x else acc)). destruct (fold_left _ l _) as [p|].
  - destruct IH as [[H1 H2]|H]; [left; split; [now right|exact H2]|]. destruct (f x) eqn:E; [|now right]. injection H as <-. left. split; [now left|exact E].
  - destruct IH as [H1 H2]. destruct (f x) eqn:E; [discriminate|]. split; [exact H1|]. intros p [<-|Hp]; auto.
Qed.
End Interchange.
