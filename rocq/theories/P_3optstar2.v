(** * Proofs about 3-opt*: the recipes and the cached tables in terms of pieces *)
From Coq Require Import ZifyBool ZifyNat.
From Verif Require Import Spec Spec_inter PyBase M_util M_psavings M_3optstar P_base P_util P_intra P_3optstar.

(** ** One step of a recipe *)
Lemma skipn_tl {A} a (l : list A) : skipn (a + 1) l = tl (skipn a l).
Proof. replace (a + 1)%nat with (S a) by lia. revert l. induction a as [|a IH]; intros [|y l]; try reflexivity. apply (IH l). Qed.

Lemma firstn_tl {A} n (l : list A) : firstn n (tl l) = tl (firstn (S n) l).
Proof. destruct l; [now rewrite firstn_nil|reflexivity]. Qed.
Lemma slice_S {A} a b (l : list A) : slice (a + 1) b l = tl (slice a b l).
Proof.
  unfold slice. rewrite skipn_tl. destruct (Nat.le_gt_cases b a) as [H|H].
  - replace (b - (a + 1))%nat with 0%nat by lia. now replace (b - a)%nat with 0%nat by lia.
  - replace (b - a)%nat with (S (b - (a + 1))) by lia. apply firstn_tl.
Qed.
Lemma nth_skipn {A} (dflt : A) a : forall l i, nth i (skipn a l) dflt = nth (a + i) l dflt.
Proof. induction a as [|a IH]; intros l i; [reflexivity|]. destruct l as [|x l]; [now destruct i|]. apply IH. Qed.
Lemma firstn_S_nth {A} n : forall (l : list A) dflt, (n < length l)%nat -> firstn (S n) l = firstn n l ++ [nth n l dflt].
Proof. induction n as [|n IH]; intros [|x l] dflt H; cbn in H; try lia; [reflexivity|]. cbn [firstn nth app]. f_equal. apply IH. lia. Qed.
Lemma slice_hd a b l x t : slice a b l = x :: t -> at_ l a = x.
Proof.
  unfold slice, at_. intros H. rewrite <- (Nat.add_0_r a) at 1. rewrite <- nth_skipn.
  destruct (skipn a l) as [|y q]; [now rewrite firstn_nil in H|]. destruct (b - a)%nat; [discriminate|]. cbn in H. now injection H.
Qed.
Lemma skipn_hd a (l : list nat) x t : skipn a l = x :: t -> at_ l a = x.
Proof.
  revert l. induction a as [|a IH]; intros [|y l] E; try discriminate; cbn in E; [now injection E|]. now apply IH.
Qed.
Definition seg (sol : list nat) (cuts : list (option nat)) (s : option nat * option nat * bool) : list nat :=
  let '(f, t, fwd) := s in
  py_slice sol (match f with Some x => nth x cuts None | None => None end) (match t with Some x => nth x cuts None | None => None end) fwd.

Lemma skip_eq new : match new with [] => false | _ => Nat.eqb (last new 0%nat) 0 end = ends0 new.
Proof. reflexivity. Qed.

Lemma step_fwd sol cuts new a t :
  match nth a cuts None with Some _ => True | None => False end ->
  recipe_step sol cuts new (Some a, t, true) = djoin new (seg sol cuts (Some a, t, true)).
Proof.
  intros H. unfold recipe_step, seg, djoin. rewrite skip_eq. destruct (nth a cuts None) as [x|] eqn:E; [clear H|easy]. f_equal.
  assert (G : forall T, (match T with [] => True | y :: _ => at_ sol x = y end) ->
                (if ends0 new && Nat.eqb (at_ sol x) 0 then tl T else T) = (if ends0 new && starts0 T then tl T else T)).
  { intros [|y T] HT; [destruct (ends0 new && Nat.eqb (at_ sol x) 0), (ends0 new && starts0 []); reflexivity|]. cbn [starts0]. now rewrite HT. }
  destruct (match t with Some x0 => nth x0 cuts None | None => None end) as [y|]; cbn [py_slice].
  - rewrite <- (G (slice x y sol)).
    + destruct (ends0 new && Nat.eqb (at_ sol x) 0); cbn [py_slice]; [apply slice_S|reflexivity].
    + destruct (slice x y sol) eqn:ES; [exact I|]. eapply slice_hd; eassumption.
  - rewrite <- (G (slice_from x sol)).
    + destruct (ends0 new && Nat.eqb (at_ sol x) 0); cbn [py_slice]; [apply skipn_tl|reflexivity].
    + unfold slice_from. destruct (skipn x sol) eqn:ES; [exact I|]. eapply skipn_hd; eassumption.
Qed.
Lemma rslice_cons {A} (dflt : A) a b (l : list A) : (b < a < length l)%nat -> rslice a b l = nth a l dflt :: rslice (a - 1) b l.
Proof.
  intros H. unfold rslice, slice. replace (a - 1 + 1)%nat with a by lia. replace (a + 1 - (b + 1))%nat with (S (a - (b + 1))) by lia.
  rewrite (firstn_S_nth _ _ dflt) by (rewrite skipn_length; lia). rewrite rev_app_distr. cbn [rev app]. f_equal.
  rewrite nth_skipn. f_equal. lia.
Qed.
Lemma step_bwd sol cuts new a b x y :
  nth a cuts None = Some x -> nth b cuts None = Some y -> (y < x < length sol)%nat ->
  recipe_step sol cuts new (Some a, Some b, false) = djoin new (seg sol cuts (Some a, Some b, false)).
Proof.
  intros H1 H2 H. unfold recipe_step, seg, djoin. rewrite skip_eq, H1, H2. cbn [py_slice]. f_equal.
  pose proof (rslice_cons 0%nat x y sol H) as E. fold (at_ sol x) in E. rewrite E. cbn [starts0 tl].
  destruct (ends0 new && Nat.eqb (at_ sol x) 0); cbn [py_slice]; [reflexivity|exact E].
Qed.
Lemma step_first sol cuts t : recipe_step sol cuts [] (None, t, true) = seg sol cuts (None, t, true).
Proof. reflexivity. Qed.
Lemma djoin_nil s : djoin [] s = s.
Proof. reflexivity. Qed.

(** ** Depots between two positions *)
Lemma find_seq_first f s n q : (s <= q < s + n)%nat -> f q = true -> (forall p, (s <= p < q)%nat -> f p = false) -> find f (seq s n) = Some q.
Proof.
  revert s. induction n as [|n IH]; intros s H Hq Hp; [lia|]. cbn [seq find]. destruct (Nat.eq_dec s q) as [->|Hn]; [now rewrite Hq|].
  rewrite Hp by lia. apply IH; [lia|exact Hq|]. intros p H1. apply Hp. lia.
Qed.
Lemma find_seq_last f s n q : (s <= q < s + n)%nat -> f q = true -> (forall p, (q < p < s + n)%nat -> f p = false) -> find f (rev (seq s n)) = Some q.
Proof.
  induction n as [|n IH]; intros H Hq Hp; [lia|]. rewrite seq_S, rev_app_distr. cbn [rev app find].
  destruct (Nat.eq_dec (s + n) q) as [<-|Hn]; [now rewrite Hq|]. rewrite Hp by lia. apply IH; [lia|exact Hq|]. intros p H1. apply Hp. lia.
Qed.
Lemma find_none_all {A} (f : A -> bool) l : (forall x, In x l -> f x = false) -> find f l = None.
Proof. induction l as [|x l IH]; intros H; [reflexivity|]. cbn. rewrite H by now left. apply IH. intros y Hy. apply H. now right. Qed.

Definition is_op (c : chunk) : bool := match c with Cl _ => false | Op _ _ _ => true end.
(** Length of the piece before its first depot, and up to and including its last one. *)
Definition pre_len (c : chunk) : nat := match c with Cl _ => 0 | Op l _ _ => length l end.
Definition upto_len (c : chunk) : nat := match c with Cl _ => 0 | Op l rs _ => length (l ++ encode rs) end.

Lemma at_customers x s y p : customers_only s -> (length x <= p < length x + length s)%nat -> Nat.eqb (at_ (x ++ s ++ y) p) 0 = false.
Proof.
  intros Hs H. unfold at_. rewrite app_nth2 by lia. rewrite app_nth1 by lia. unfold customers_only in Hs. rewrite Forall_forall in Hs.
  apply Nat.eqb_neq, Hs, nth_In. lia.
Qed.
Lemma ldepot_chunk x c y a b : wfc c -> a = length x -> (b + 1 = length x + length (nodes c))%nat ->
  ldepot (x ++ nodes c ++ y) a b = if is_op c then Some (length x + pre_len c)%nat else None.
Proof.
  intros W -> Hb. unfold ldepot, range. destruct c as [s|l rs r]; cbn [nodes is_op pre_len wfc] in *.
  - apply find_none_all. intros p Hp. apply in_seq in Hp. apply at_customers; [exact W|lia].
  - destruct W as (Wl & _ & _). rewrite !app_length in Hb. assert (length (encode rs) >= 1)%nat by (cbn; lia). apply find_seq_first.
    + lia.
    + unfold at_. rewrite app_nth2 by lia. replace (length x + length l - length x)%nat with (length l) by lia.
      rewrite <- !app_assoc, app_nth2, Nat.sub_diag by lia. reflexivity.
    + intros p Hp. rewrite <- !app_assoc. apply at_customers; [exact Wl|lia].
Qed.
Lemma rdepot_chunk x c y a b : wfc c -> a = length x -> (b + 1 = length x + length (nodes c))%nat ->
  option_map S (rdepot (x ++ nodes c ++ y) a b) = if is_op c then Some (length x + upto_len c)%nat else None.
Proof.
  intros W -> Hb. unfold rdepot, range. destruct c as [s|l rs r]; cbn [nodes is_op upto_len wfc] in *.
  - rewrite find_none_all; [reflexivity|]. intros p Hp. apply in_rev, in_seq in Hp. apply at_customers; [exact W|lia].
  - destruct W as (_ & _ & Wr). rewrite !app_length in Hb. assert (length (encode rs) >= 1)%nat by (cbn; lia).
    rewrite (find_seq_last _ _ _ (length x + length (l ++ encode rs) - 1)); rewrite ?app_length.
    + cbn. f_equal. lia.
    + lia.
    + replace (x ++ (l ++ encode rs ++ r) ++ y) with ((x ++ l ++ encode rs) ++ r ++ y) by now rewrite <- !app_assoc.
      rewrite (at_last (x ++ l ++ encode rs)).
      * rewrite app_assoc, (last_app_ne _ (x ++ l) (encode rs)); [now rewrite last_encode|discriminate].
      * destruct x, l; discriminate.
      * rewrite !app_length. lia.
    + intros p Hp. replace (x ++ (l ++ encode rs ++ r) ++ y) with ((x ++ l ++ encode rs) ++ r ++ y) by now rewrite <- !app_assoc.
      apply at_customers; [exact Wr|]. rewrite !app_length. lia.
Qed.

(** ** Running sums *)
Fixpoint run (f : nat -> nat -> Z) (prev : nat) (l : list nat) : Z :=
  match l with [] => 0 | n :: t => f prev n + run f n t end.
Lemma run_app f l1 : forall prev l2, run f prev (l1 ++ l2) = run f prev l1 + run f (last l1 prev) l2.
Proof.
  induction l1 as [|x l1 IH]; intros prev l2; [reflexivity|]. rewrite last_cons. cbn [app run]. rewrite IH. lia.
Qed.
Lemma cum_last f l : forall prev acc x, nth (length l) (cum_routes f prev acc (l ++ [x])) 0 =
  if Nat.eqb x 0 then 0 else nth (length l) (cum_routes f prev acc (l ++ [x])) 0.
Proof.
  induction l as [|y l IH]; intros prev acc x; cbn [app cum_routes length nth].
  - destruct (Nat.eqb x 0); reflexivity.
  - apply IH.
Qed.
Lemma cum_app_nth f a b : forall prev acc n, (n < length a)%nat -> nth n (cum_routes f prev acc (a ++ b)) 0 = nth n (cum_routes f prev acc a) 0.
Proof.
  induction a as [|x a IH]; intros prev acc n H; [cbn in H; lia|]. cbn [app cum_routes]. destruct n as [|n]; [reflexivity|]. cbn [nth].
  apply IH. cbn in H. lia.
Qed.
Lemma cum_customers f p : customers_only p -> forall prev acc, p <> [] -> nth (length p - 1) (cum_routes f prev acc p) 0 = acc + run f prev p.
Proof.
  induction p as [|x p IH]; intros Hc prev acc Hne; [easy|]. cbn [cum_routes length run]. pose proof (Forall_inv Hc) as Hx. apply Forall_inv_tail in Hc.
  destruct (Nat.eqb_spec x 0); [easy|]. replace (S (length p) - 1)%nat with (length p) by lia. destruct p as [|y p]; [cbn; lia|].
  change (nth (length (y :: p)) ((acc + f prev x) :: cum_routes f x (acc + f prev x) (y :: p)) 0 = acc + (f prev x + run f x (y :: p))).
  replace (length (y :: p)) with (S (length (y :: p) - 1)) by (cbn; lia). cbn [nth]. rewrite IH by (assumption || discriminate). lia.
Qed.
(** After any prefix ending with a depot, the sum restarts. *)
Lemma cum_depot f q p : customers_only p -> forall prev acc, nth (length q + length p) (cum_routes f prev acc (q ++ 0%nat :: p)) 0 = run f 0%nat p.
Proof.
  intros Hp. induction q as [|x q IH]; intros prev acc.
  - cbn [app cum_routes length Nat.add Nat.eqb]. destruct p as [|y p]; [reflexivity|].
    replace (length (y :: p)) with (S (length (y :: p) - 1)) by (cbn; lia). cbn [nth]. rewrite cum_customers by (assumption || discriminate). lia.
  - cbn [app cum_routes length Nat.add nth]. apply IH.
Qed.
Lemma encode_snoc0 R : exists q, encode R = q ++ [0%nat].
Proof. exists (removelast (encode R)). pose proof (@app_removelast_last nat (encode R) 0%nat) as H. rewrite last_encode in H. apply H. discriminate. Qed.

Lemma fwd_prefix f R p y : customers_only p ->
  nth (length (encode R ++ p) - 1) (sol_fwd f ((encode R ++ p) ++ y)) 0 = run f 0%nat p.
Proof.
  intros Hp. destruct (encode_snoc0 R) as (q & E). destruct q as [|z q].
  - rewrite E. cbn [app sol_fwd length]. replace (S (length p) - 1)%nat with (length p) by lia. destruct p as [|x p]; [reflexivity|].
    replace (length (x :: p)) with (S (length (x :: p) - 1)) by (cbn; lia). cbn [nth].
    rewrite cum_app_nth by (cbn; lia). rewrite cum_customers by (assumption || discriminate). lia.
  - rewrite E, <- app_assoc. cbn [app sol_fwd length]. rewrite app_length. cbn [length].
    replace (S (length q + S (length p)) - 1)%nat with (S (length q + length p)) by lia. cbn [nth].
    rewrite cum_app_nth by (rewrite app_length; cbn; lia). apply cum_depot. exact Hp.
Qed.
Lemma cum_length f l : forall prev acc, length (cum_routes f prev acc l) = length l.
Proof. induction l as [|x l IH]; intros; [reflexivity|]. cbn. now rewrite IH. Qed.
Lemma fwd_length f sol : length (sol_fwd f sol) = length sol.
Proof. destruct sol; [reflexivity|]. cbn. now rewrite cum_length. Qed.
Lemma rwd_suffix f R p x : customers_only p ->
  nth (length x) (sol_rwd f (x ++ p ++ encode R)) 0 = run f 0%nat (rev p).
Proof.
  intros Hp. unfold sol_rwd. assert (E1 : (length (encode R) >= 1)%nat) by (cbn; lia).
  rewrite rev_nth by (rewrite fwd_length, rev_length, !app_length; lia). rewrite fwd_length, rev_length.
  rewrite app_length, !rev_app_distr, rev_encode.
  rewrite <- (fwd_prefix f (rvr R) (rev p) (rev x)) by now apply customers_rev. f_equal.
  rewrite !app_length, rev_length. replace (length (encode (rvr R))) with (length (encode R)) by now rewrite <- rev_encode, rev_length. lia.
Qed.
