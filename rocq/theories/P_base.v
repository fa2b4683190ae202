(** * General lemmas *)
From Verif Require Import Spec PyBase M_util M_cvrp_ops.
From Coq Require Import Sorting.Sorted ZifyBool ZifyNat.

Lemma sumZ_app l1 l2 : sumZ (l1 ++ l2) = sumZ l1 + sumZ l2.
Proof. induction l1 as [|a l1 IH]; [reflexivity|]. cbn [app]. unfold sumZ in *. cbn [fold_right]. lia. Qed.

Lemma sumZ_cons a l : sumZ (a :: l) = a + sumZ l.
Proof. reflexivity. Qed.

Lemma sumZ_perm l1 l2 : Permutation l1 l2 -> sumZ l1 = sumZ l2.
Proof. induction 1; rewrite ?sumZ_cons in *; cbn; lia. Qed.

Lemma sumZ_rev l : sumZ (rev l) = sumZ l.
Proof. apply sumZ_perm, Permutation_sym, Permutation_rev. Qed.

Lemma sumZ_map_concat {A} (f : A -> Z) (ls : list (list A)) :
  sumZ (map f (concat ls)) = sumZ (map (fun l => sumZ (map f l)) ls).
Proof. induction ls as [|l ls IH]; cbn [concat map]; [reflexivity|].
  rewrite map_app, sumZ_app, IH, sumZ_cons; reflexivity. Qed.

Lemma demand_app d l1 l2 : demand d (l1 ++ l2) = demand d l1 + demand d l2.
Proof. unfold demand. now rewrite map_app, sumZ_app. Qed.

Lemma demand_cons d a l : demand d (a :: l) = d a + demand d l.
Proof. reflexivity. Qed.

Lemma demand_nil d : demand d [] = 0.
Proof. reflexivity. Qed.

Lemma demand_perm d l1 l2 : Permutation l1 l2 -> demand d l1 = demand d l2.
Proof. intros H. apply sumZ_perm, Permutation_map, H. Qed.

Lemma demand_rev d l : demand d (rev l) = demand d l.
Proof. apply demand_perm, Permutation_sym, Permutation_rev. Qed.

Lemma path_cost_nil D : path_cost D [] = 0. Proof. reflexivity. Qed.
Lemma path_cost_one D a : path_cost D [a] = 0. Proof. reflexivity. Qed.
Lemma path_cost_cons2 D a b l : path_cost D (a :: b :: l) = D a b + path_cost D (b :: l).
Proof. reflexivity. Qed.

(** Splitting a path at a node. *)
Lemma path_cost_mid D l1 x l2 :
  path_cost D (l1 ++ x :: l2) = path_cost D (l1 ++ [x]) + path_cost D (x :: l2).
Proof.
  induction l1 as [|a l1 IH]; [cbn [app]; rewrite path_cost_one; lia|].
  destruct l1 as [|b l1]; cbn [app] in *.
  - rewrite !path_cost_cons2, path_cost_one. lia.
  - rewrite !path_cost_cons2. rewrite IH. lia.
Qed.

(** Splitting a path at an edge. *)
Lemma path_cost_edge D l1 x y l2 :
  path_cost D (l1 ++ x :: y :: l2) = path_cost D (l1 ++ [x]) + D x y + path_cost D (y :: l2).
Proof. rewrite path_cost_mid, path_cost_cons2. lia. Qed.

Lemma path_cost_snoc2 D l x y : path_cost D (l ++ [x; y]) = path_cost D (l ++ [x]) + D x y.
Proof. rewrite path_cost_edge, path_cost_one. lia. Qed.

Lemma path_cost_rev D l : symmetric D -> path_cost D (rev l) = path_cost D l.
Proof.
  intros HS. induction l as [|a l IH]; [reflexivity|].
  destruct l as [|b l]; [reflexivity|].
  cbn [rev] in *. rewrite <- app_assoc. cbn [app].
  rewrite path_cost_snoc2, IH, path_cost_cons2, (HS b a). lia.
Qed.

Lemma path_cost_app D l1 l2 : l1 <> [] -> l2 <> [] ->
  path_cost D (l1 ++ l2) = path_cost D l1 + D (last l1 0%nat) (hd 0%nat l2) + path_cost D l2.
Proof.
  intros H1 H2. destruct (exists_last H1) as [l [x ->]]. destruct l2 as [|y l2]; [easy|].
  rewrite last_last. cbn [hd]. rewrite <- app_assoc. cbn [app]. apply path_cost_edge.
Qed.

Lemma consecutive_sum_path D l : consecutive_sum D l = path_cost D l.
Proof.
  unfold consecutive_sum, range.
  induction l as [|a l IH]; [reflexivity|].
  destruct l as [|b l]; [reflexivity|].
  rewrite path_cost_cons2, <- IH. cbn [length].
  replace (S (S (length l)) - 1)%nat with (S (length l)) by lia.
  replace (S (length l) - 1)%nat with (length l) by lia.
  cbn [seq map]. rewrite sumZ_cons. f_equal.
  rewrite <- seq_shift, map_map. f_equal. apply map_ext_in. intros i Hi.
  apply in_seq in Hi. unfold at_. f_equal.
  replace (S i - 1)%nat with (S (i - 1)) by lia. reflexivity.
Qed.

Lemma objf_path sol D : objf sol D = path_cost D sol.
Proof. exact (consecutive_sum_path D sol). Qed.

Lemma route_cost_rev D r : symmetric D -> route_cost D (rev r) = route_cost D r.
Proof.
  intros HS. unfold route_cost.
  rewrite <- (path_cost_rev D (0%nat :: r ++ [0%nat])) by assumption.
  f_equal. cbn [rev]. rewrite rev_app_distr. reflexivity.
Qed.

(** Cost of the depot-delimited encoding. *)
Lemma encode_cons r rs : encode (r :: rs) = 0%nat :: r ++ encode rs.
Proof. unfold encode. cbn [flat_map]. now rewrite <- app_assoc. Qed.

Lemma encode_app rs1 rs2 : encode (rs1 ++ rs2) = encode rs1 ++ tl (encode rs2).
Proof. unfold encode. cbn [tl]. now rewrite flat_map_app. Qed.

Lemma path_cost_encode D rs : path_cost D (encode rs) = routes_cost D rs.
Proof.
  induction rs as [|r rs IH]; [reflexivity|].
  rewrite encode_cons. unfold routes_cost in *. cbn [map]. rewrite sumZ_cons, <- IH.
  unfold route_cost. unfold encode at 1 2. rewrite app_comm_cons, path_cost_mid. reflexivity.
Qed.

Lemma encode_cyclic rs : encode rs = cyclic rs ++ [0%nat].
Proof.
  induction rs as [|r rs IH]; [reflexivity|].
  rewrite encode_cons, IH. unfold cyclic. cbn [flat_map app]. now rewrite <- app_assoc.
Qed.

Lemma last_encode rs : last (encode rs) 0%nat = 0%nat.
Proof. rewrite encode_cyclic. apply last_last. Qed.

Lemma customers_app l1 l2 : customers (l1 ++ l2) = customers l1 ++ customers l2.
Proof. apply filter_app. Qed.

Lemma customers_id r : customers_only r -> customers r = r.
Proof.
  induction 1 as [|n r Hn _ IH]; [reflexivity|]. cbn. unfold customers in IH. rewrite IH.
  destruct n; [easy|reflexivity].
Qed.

Lemma customers_encode rs : Forall customers_only rs -> customers (encode rs) = concat rs.
Proof.
  induction 1 as [|r rs Hr _ IH]; [reflexivity|].
  rewrite encode_cons. unfold customers at 1. cbn [filter Nat.eqb negb]. fold (customers (r ++ encode rs)).
  rewrite customers_app, IH, (customers_id r Hr). reflexivity.
Qed.

Lemma exceeds_within lim eps x : exceeds lim eps x = false <-> within lim eps x.
Proof.
  unfold exceeds, within, truthy. destruct lim as [c|]; [|easy].
  destruct (Z.eqb_spec c 0) as [->|H]; [split; [lia|auto]|]. split; lia.
Qed.

Lemma exceeds_true lim eps x : exceeds lim eps x = true <-> ~ within lim eps x.
Proof. rewrite <- exceeds_within. destruct (exceeds lim eps x); split; congruence. Qed.

(** ** groupby and splitting at the depot *)

(** Every node list with the split at zeros: [enc0 gs] below gives the canonical view
    "maximal runs of non-zero nodes separated by runs of zeros". *)
Lemma groupby_customers r : customers_only r -> r <> [] ->
  groupby Bool.eqb (fun z => Nat.eqb z 0) r = [(false, r)].
Proof.
  intros Hc. induction Hc as [|n r Hn Hr IH]; [easy|]. intros _.
  cbn [groupby]. destruct r as [|m r].
  - cbn. destruct n; [easy|reflexivity].
  - rewrite IH by easy. destruct n; [easy|reflexivity].
Qed.

Definition zero_groups (l : list nat) := groupby Bool.eqb (fun z => Nat.eqb z 0) l.
Definition nz (g : bool * list nat) : bool := negb (fst g).

Lemma list_split_groups l : list_split l 0 = map snd (filter nz (zero_groups l)).
Proof. reflexivity. Qed.

Lemma groupby_head l : match zero_groups l, l with
  | [], [] => True
  | (k, g) :: _, x :: _ => k = Nat.eqb x 0 /\ g <> []
  | _, _ => False end.
Proof.
  unfold zero_groups. destruct l as [|x t]; [exact I|]. cbn [groupby].
  destruct (groupby _ _ t) as [|[k g] gs]; [easy|].
  destruct (Bool.eqb (Nat.eqb x 0) k) eqn:E; [|easy].
  apply Bool.eqb_prop in E. subst. easy.
Qed.

Lemma split_zero_cons l : list_split (0%nat :: l) 0 = list_split l 0.
Proof.
  rewrite !list_split_groups. unfold zero_groups. cbn [groupby].
  pose proof (groupby_head l) as H. unfold zero_groups in H.
  destruct (groupby _ _ l) as [|[k g] gs]; [reflexivity|].
  destruct k; cbn; reflexivity.
Qed.

Lemma zero_groups_cons x l : zero_groups (x :: l) =
  match zero_groups l with
  | (k, g) :: gs => if Bool.eqb (Nat.eqb x 0) k then (k, x :: g) :: gs
                    else (Nat.eqb x 0, [x]) :: (k, g) :: gs
  | [] => [(Nat.eqb x 0, [x])]
  end.
Proof. reflexivity. Qed.

Lemma split_route_zero r l : customers_only r -> r <> [] ->
  list_split (r ++ 0%nat :: l) 0 = r :: list_split l 0.
Proof.
  intros Hc. induction Hc as [|n r Hn Hr IH]; [easy|]. intros _.
  assert (E : Nat.eqb n 0 = false) by (destruct n; easy).
  destruct r as [|m r].
  - cbn [app]. rewrite <- (split_zero_cons l). rewrite !list_split_groups.
    rewrite (zero_groups_cons n). pose proof (groupby_head (0%nat :: l)) as H.
    destruct (zero_groups (0%nat :: l)) as [|[k g] gs]; [easy|].
    destruct H as [-> _]. rewrite E. reflexivity.
  - specialize (IH ltac:(easy)). rewrite !list_split_groups in *.
    cbn [app]. rewrite (zero_groups_cons n).
    pose proof (groupby_head ((m :: r) ++ 0%nat :: l)) as H. cbn [app] in *.
    destruct (zero_groups (m :: r ++ 0%nat :: l)) as [|[k g] gs]; [easy|].
    destruct H as [-> _]. assert (E2 : Nat.eqb m 0 = false) by (inversion Hr; destruct m; easy).
    rewrite E2 in *. rewrite E. cbn [Bool.eqb]. cbn [filter map nz fst snd negb] in *.
    injection IH as -> ->. reflexivity.
Qed.

Lemma split_route_end r : customers_only r -> r <> [] -> list_split r 0 = [r].
Proof. intros Hc Hn. rewrite list_split_groups. unfold zero_groups. now rewrite groupby_customers. Qed.


Lemma split_encode rs : Forall customers_only rs -> list_split (encode rs) 0 = filter nonempty rs.
Proof.
  induction 1 as [|r rs Hr _ IH]; [reflexivity|].
  rewrite encode_cons, split_zero_cons. destruct r as [|n r]; [exact IH|].
  unfold encode in *. rewrite split_route_zero by easy.
  cbn [filter nonempty]. f_equal. now rewrite split_zero_cons in IH.
Qed.

(** Every list of nodes is a route followed by nothing or by a depot. *)
Lemma split_at_zero (l : list nat) :
  (customers_only l) \/ exists r t, customers_only r /\ l = r ++ 0%nat :: t.
Proof.
  induction l as [|x l IH]; [left; constructor|].
  destruct x as [|x].
  - right. exists [], l. split; [constructor|reflexivity].
  - destruct IH as [H|(r & t & H & ->)].
    + left. constructor; easy.
    + right. exists (S x :: r), t. split; [constructor; easy|reflexivity].
Qed.

(** Any tour that starts and ends with the depot is the encoding of some routes. *)
Lemma delimited_encode (l : list nat) : exists rs, Forall customers_only rs /\
  0%nat :: l ++ [0%nat] = encode rs.
Proof.
  remember (length l) as n eqn:Hn. revert l Hn.
  induction n as [n IH] using lt_wf_ind. intros l ->.
  destruct (split_at_zero l) as [H|(r & t & H & E)].
  - exists [l]. split; [constructor; easy|]. unfold encode. cbn. now rewrite app_nil_r.
  - destruct (IH (length t)) with (l := t) as (rs & Hrs & Ers); [subst; rewrite app_length; cbn; lia|easy|].
    exists (r :: rs). split; [constructor; easy|].
    rewrite encode_cons, <- Ers, E. cbn. now rewrite <- app_assoc.
Qed.

(** ** Lexicographic sorting *)
Lemma lex_leb_cons x a y b : lex_leb (x :: a) (y :: b) =
  if Nat.ltb x y then true else if Nat.ltb y x then false else lex_leb a b.
Proof. reflexivity. Qed.

Lemma lex_leb_refl a : lex_leb a a = true.
Proof. induction a as [|x a IH]; [reflexivity|]. rewrite lex_leb_cons, Nat.ltb_irrefl. exact IH. Qed.

Lemma lex_leb_total a b : lex_leb a b = true \/ lex_leb b a = true.
Proof.
  revert b; induction a as [|x a IH]; intros b; [left; reflexivity|].
  destruct b as [|y b]; [right; reflexivity|]. rewrite !lex_leb_cons.
  destruct (Nat.ltb_spec x y); [left; reflexivity|].
  destruct (Nat.ltb_spec y x); [right; reflexivity|]. apply IH.
Qed.

Lemma lex_leb_antisym a b : lex_leb a b = true -> lex_leb b a = true -> a = b.
Proof.
  revert b; induction a as [|x a IH]; intros [|y b]; try easy. rewrite !lex_leb_cons.
  destruct (Nat.ltb_spec x y); destruct (Nat.ltb_spec y x); try lia; try easy.
  intros H1 H2. assert (x = y) by lia. subst. f_equal. now apply IH.
Qed.

Lemma lex_leb_trans a b c : lex_leb a b = true -> lex_leb b c = true -> lex_leb a c = true.
Proof.
  revert b c; induction a as [|x a IH]; intros b c; [reflexivity|].
  destruct b as [|y b]; [easy|]. destruct c as [|z c]; [easy|]. rewrite !lex_leb_cons.
  destruct (Nat.ltb_spec x y); destruct (Nat.ltb_spec y x); destruct (Nat.ltb_spec y z);
    destruct (Nat.ltb_spec z y); destruct (Nat.ltb_spec x z); destruct (Nat.ltb_spec z x);
    try lia; try easy.
  apply IH.
Qed.

Definition lex_le a b : Prop := lex_leb a b = true.

Lemma lex_insert_perm x l : Permutation (x :: l) (lex_insert x l).
Proof.
  induction l as [|y l IH]; [reflexivity|]. cbn. destruct (lex_leb x y); [reflexivity|].
  rewrite perm_swap. now constructor.
Qed.

Lemma lex_sort_perm l : Permutation l (lex_sort l).
Proof. induction l as [|x l IH]; [constructor|]. cbn. rewrite <- lex_insert_perm. now constructor. Qed.

Lemma lex_insert_sorted x l : StronglySorted lex_le l -> StronglySorted lex_le (lex_insert x l).
Proof.
  induction 1 as [|y l Hs IH Hf]; cbn; [repeat constructor|].
  destruct (lex_leb x y) eqn:E.
  - constructor; [now constructor|]. constructor; [exact E|].
    eapply Forall_impl; [|exact Hf]. intros z Hz. eapply lex_leb_trans; eassumption.
  - constructor; [exact IH|]. rewrite Forall_forall in *. intros z Hz.
    apply (Permutation_in _ (Permutation_sym (lex_insert_perm x l))) in Hz.
    destruct Hz as [<-|Hz]; [|now apply Hf].
    destruct (lex_leb_total x y) as [H|H]; [congruence|exact H].
Qed.

Lemma lex_sort_sorted l : StronglySorted lex_le (lex_sort l).
Proof. induction l as [|x l IH]; cbn; [constructor|now apply lex_insert_sorted]. Qed.

(** Sorting gives a unique result: whatever algorithm list.sort() uses, it returns [lex_sort]. *)
Lemma sorted_unique l1 l2 : StronglySorted lex_le l1 -> StronglySorted lex_le l2 ->
  Permutation l1 l2 -> l1 = l2.
Proof.
  intros H1. revert l2. induction H1 as [|x l1 Hs IH Hf]; intros l2 H2 HP.
  - symmetry; now apply Permutation_nil.
  - destruct H2 as [|y l2 Hs2 Hf2]; [symmetry in HP; now apply Permutation_nil in HP|].
    assert (x = y) as ->.
    { assert (Hx : In x (y :: l2)) by (eapply Permutation_in; [exact HP|now left]).
      assert (Hy : In y (x :: l1)) by (eapply Permutation_in; [symmetry; exact HP|now left]).
      rewrite Forall_forall in *.
      destruct Hx as [->|Hx]; [easy|]. destruct Hy as [->|Hy]; [easy|].
      apply lex_leb_antisym; [now apply Hf|now apply Hf2]. }
    f_equal. apply IH; [easy|]. now apply Permutation_cons_inv in HP.
Qed.

Lemma lex_sort_unique l1 l2 : Permutation l1 l2 -> lex_sort l1 = lex_sort l2.
Proof.
  intros H. apply sorted_unique; try apply lex_sort_sorted.
  now rewrite <- !lex_sort_perm.
Qed.

Lemma lex_sort_id l : StronglySorted lex_le l -> lex_sort l = l.
Proof. intros H. apply sorted_unique; [apply lex_sort_sorted|easy|symmetry; apply lex_sort_perm]. Qed.

(** ** Misc *)
Lemma concat_perm {A} (l1 l2 : list (list A)) : Permutation l1 l2 -> Permutation (concat l1) (concat l2).
Proof.
  induction 1; cbn; [constructor|now apply Permutation_app_head| |now transitivity (concat l')].
  rewrite !app_assoc. apply Permutation_app_tail, Permutation_app_comm.
Qed.

Lemma filter_nonempty_id rs : Forall (fun r => r <> []) rs -> filter nonempty rs = rs.
Proof. induction 1 as [|r rs H _ IH]; [reflexivity|]. destruct r; [easy|]. cbn. now f_equal. Qed.

Lemma filter_nonempty_Forall rs : Forall (fun r => r <> []) (filter nonempty rs).
Proof. apply Forall_forall. intros r H. apply filter_In in H. destruct r; [now destruct H|easy]. Qed.

Lemma concat_filter_nonempty rs : concat (filter nonempty rs) = concat rs.
Proof. induction rs as [|r rs IH]; [reflexivity|]. destruct r; cbn; [exact IH|now rewrite IH]. Qed.

Lemma fold_left_app_flat {A} (f : A -> list nat) l acc :
  fold_left (fun s x => s ++ f x) l acc = acc ++ flat_map f l.
Proof.
  revert acc. induction l as [|x l IH]; intros acc; cbn; [now rewrite app_nil_r|].
  now rewrite IH, <- app_assoc.
Qed.

Lemma Forall_perm {A} (P : A -> Prop) l1 l2 : Permutation l1 l2 -> Forall P l1 -> Forall P l2.
Proof.
  intros HP H. rewrite Forall_forall in *. intros x Hx. apply H.
  eapply Permutation_in; [symmetry; exact HP|exact Hx].
Qed.

Lemma filter_len_le {A} (f : A -> bool) l : (length (filter f l) <= length l)%nat.
Proof. induction l as [|a l IH]; cbn; [lia|]. destruct (f a); cbn; lia. Qed.

Lemma last_indep {A} (l : list A) a b : l <> [] -> last l a = last l b.
Proof. induction l as [|x l IH]; [easy|]. intros _. destruct l; [reflexivity|]. cbn. now apply IH. Qed.

Lemma last_cons {A} (x : A) l p : last (x :: l) p = last l x.
Proof. destruct l as [|y l]; [reflexivity|]. change (last (x :: y :: l) p) with (last (y :: l) p). now apply last_indep. Qed.

Lemma app_prefix {A} (a : list A) : forall b c e, a ++ b = c ++ e -> (length a <= length c)%nat ->
  exists q, c = a ++ q /\ b = q ++ e.
Proof.
  induction a as [|x a IH]; intros b c e E HL; [exists c; auto|].
  destruct c as [|y c]; cbn in HL; [lia|]. cbn in E. injection E as -> E.
  destruct (IH b c e E) as (q & -> & ->); [lia|]. exists q. auto.
Qed.
