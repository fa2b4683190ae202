(** * The naive local search: 2-opt*, and the agreement with the other operators *)
From Verif Require Import Spec Spec_ls Spec_inter PyBase M_util M_intra M_naive Spec_naive P_base P_scan P_intra P_intra2 P_cvrp P_naive P_naive2 P_naive3 P_naive4.
From Coq Require Import ZifyBool ZifyNat Lia Arith List Permutation.
Import ListNotations.
Local Open Scope Z_scope.

(** ** 2-opt* *)
Section Star.
Variables (eps : Z) (D : matrix).
Lemma inner_kinds sol bd a : forall cs l r, match star_inner eps D sol bd a cs l r with None | Some NameError | Some ValueError => True | _ => False end.
Proof.
  induction cs as [|c cs IH]; intros l r; cbn [star_inner]; [exact I|].
  destruct (_ <? _); [exact I|].
  destruct (if Nat.eqb (at_ sol c) 0 then match l with Some _ => l | None => Some c end else l), (if Nat.eqb (at_ sol c) 0 then Some c else r); try apply IH.
  destruct (next_depot _ _); [|exact I]. destruct (_ <? _); [exact I|apply IH].
Qed.
Lemma outer_kinds sol bd : forall l, match star_outer eps D sol bd l with None | Some NameError | Some ValueError => True | _ => False end.
Proof.
  induction l as [|a l IH]; cbn [star_outer]; [exact I|]. set (mid := if Nat.eqb (at_ sol (a + 1)) 0 then _ else _).
  pose proof (inner_kinds sol bd a (range (a + 1) (length sol - 1)) mid mid) as H. destruct (star_inner _ _ _ _ _ _ _ _); [exact H|exact IH].
Qed.
Lemma star_kinds sol bd : match do_naive_2optstar_move eps D sol bd with Nothing | NameError | ValueError => True | _ => False end.
Proof.
  unfold do_naive_2optstar_move. pose proof (outer_kinds sol (start_delta bd) (range 0 (length sol - 3))) as H. destruct (star_outer _ _ _ _ _); [destruct n; try exact I; exact H|exact I].
Qed.

Lemma next_depot_none : forall l e, next_depot l e = None -> ~ In 0%nat l.
Proof.
  induction l as [|x l IH]; intros e H; [intros []|]. cbn [next_depot] in H. destruct (Nat.eqb_spec x 0) as [|Hx]; [discriminate|]. intros [X|X]; [congruence|exact (IH _ H X)].
Qed.
Lemma inner_encode rs bd a : forall cs l r, (forall c, In c cs -> (c < length (encode rs) - 1)%nat) -> star_inner eps D (encode rs) bd a cs l r <> Some ValueError.
Proof.
  induction cs as [|c cs IH]; intros l r Hc; cbn [star_inner]; [discriminate|].
  destruct (_ <? _); [discriminate|].
  destruct (if Nat.eqb (at_ (encode rs) c) 0 then match l with Some _ => l | None => Some c end else l), (if Nat.eqb (at_ (encode rs) c) 0 then Some c else r); try (apply IH; intros x Hx; apply Hc; right; exact Hx).
  destruct (next_depot (skipn (c + 1) (encode rs)) (c + 1)) eqn:E; [destruct (_ <? _); [discriminate|apply IH; intros x Hx; apply Hc; right; exact Hx]|].
  exfalso. apply (next_depot_none _ _ E). pose proof (Hc c (or_introl eq_refl)) as Hl. pose proof (last_encode rs) as HL.
  rewrite <- (firstn_skipn (c + 1) (encode rs)) in HL. assert (N : skipn (c + 1) (encode rs) <> []) by (apply len_ne; rewrite skipn_length; lia).
  destruct (exists_last N) as (q & y & Eq). rewrite Eq, app_assoc, last_last in HL. rewrite Eq, HL. apply in_or_app. right. left. reflexivity.
Qed.
Lemma outer_encode rs bd : forall l, star_outer eps D (encode rs) bd l <> Some ValueError.
Proof.
  induction l as [|a l IH]; cbn [star_outer]; [discriminate|]. set (mid := if Nat.eqb (at_ (encode rs) (a + 1)) 0 then _ else _).
  pose proof (inner_encode rs bd a (range (a + 1) (length (encode rs) - 1)) mid mid) as H.
  destruct (star_inner _ _ _ _ _ _ _ _); [apply H; intros c Hc; apply in_range in Hc; lia|exact IH].
Qed.

Lemma inner_reaches sol bd a c : (forall k, (a < k <= c)%nat -> at_ sol k <> 0%nat) -> (c < length sol - 1)%nat ->
  objf (reverse_part sol a c) D - objf sol D + eps < bd -> forall n b, (a < b)%nat -> (b + n = c)%nat ->
  star_inner eps D sol bd a (range b (length sol - 1)) None None = Some NameError.
Proof.
  intros Hk Hc Hlt. induction n as [|n IH]; intros b Hb Hn.
  - replace c with b in * by lia. unfold range. replace (length sol - 1 - b)%nat with (S (length sol - 2 - b)) by lia. cbn [seq star_inner].
    replace (Nat.eqb (at_ sol b) 0) with false by (symmetry; apply Nat.eqb_neq, Hk; lia).
    cbn [star_alt1]. unfold reverse_part in Hlt. rewrite (proj2 (Z.ltb_lt _ _) Hlt). reflexivity.
  - unfold range. replace (length sol - 1 - b)%nat with (S (length sol - 1 - S b)) by lia. cbn [seq star_inner].
    replace (Nat.eqb (at_ sol b) 0) with false by (symmetry; apply Nat.eqb_neq, Hk; lia).
    destruct (_ <? _); [reflexivity|]. apply IH; lia.
Qed.
Lemma outer_reaches rs bd a : In a (range 0 (length (encode rs) - 3)) -> (exists c, (a + 2 <= c < length (encode rs) - 1)%nat /\ (forall k, (a < k <= c)%nat -> at_ (encode rs) k <> 0%nat) /\
    objf (reverse_part (encode rs) a c) D - objf (encode rs) D + eps < bd) -> forall l, In a l -> star_outer eps D (encode rs) bd l = Some NameError.
Proof.
  intros _ (c & Hc & Hk & Hlt). induction l as [|x l IH]; intros Hin; [destruct Hin|]. cbn [star_outer].
  set (mid := if Nat.eqb (at_ (encode rs) (x + 1)) 0 then _ else _).
  pose proof (inner_encode rs bd x (range (x + 1) (length (encode rs) - 1)) mid mid) as HV. pose proof (inner_kinds (encode rs) bd x (range (x + 1) (length (encode rs) - 1)) mid mid) as HK.
  destruct (star_inner eps D (encode rs) bd x _ mid mid) as [e|] eqn:E.
  - destruct e; try contradiction; [reflexivity|]. exfalso. apply HV; [intros y Hy; apply in_range in Hy; lia|reflexivity].
  - destruct Hin as [->|Hin]; [|apply IH; exact Hin]. exfalso. unfold mid in E. replace (Nat.eqb (at_ (encode rs) (a + 1)) 0) with false in E by (symmetry; apply Nat.eqb_neq, Hk; lia).
    rewrite (inner_reaches (encode rs) bd a c Hk (proj2 Hc) Hlt (c - (a + 1)) (a + 1)) in E by lia. discriminate.
Qed.
Lemma star_name_error rs bd s : start_delta bd <= 0 -> 0 <= eps -> reversed_part (encode rs) s -> path_cost D s - path_cost D (encode rs) + eps < start_delta bd ->
  do_naive_2optstar_move eps D (encode rs) bd = NameError.
Proof.
  intros Hb He (l1 & l2 & l3 & E1 & -> & HC) Hlt.
  assert (H2 : (2 <= length l2)%nat). { destruct l2 as [|x [|y l2]]; [exfalso|exfalso|cbn [length]; lia]; rewrite E1 in Hlt; cbn [rev app] in Hlt; lia. }
  assert (N1 : l1 <> []). { intros ->. destruct l2 as [|x l2]; [cbn in H2; lia|]. cbn in E1. injection E1 as <- _. inversion HC; congruence. }
  assert (N3 : l3 <> []).
  { intros ->. pose proof (last_encode rs) as LE. rewrite E1, app_nil_r in LE. assert (N2 : l2 <> []) by (apply len_ne; lia).
    destruct (exists_last N2) as (q & x & ->). rewrite app_assoc, last_last in LE. apply Forall_app in HC. destruct HC as (_ & HC). inversion HC; congruence. }
  pose proof (ne_len _ N1). pose proof (ne_len _ N3). assert (Hlen : length (encode rs) = (length l1 + length l2 + length l3)%nat) by (rewrite E1, !app_length; lia).
  unfold do_naive_2optstar_move. rewrite (outer_reaches rs (start_delta bd) (length l1 - 1)); [reflexivity|apply in_range; lia| |apply in_range; lia].
  exists (length l1 + length l2 - 1)%nat. split; [lia|]. split.
  - intros k Hk. unfold at_. rewrite E1, app_nth2, app_nth1 by lia. unfold customers_only in HC. rewrite Forall_forall in HC. apply HC, nth_In. lia.
  - assert (X : reverse_part (encode rs) (length l1 - 1) (length l1 + length l2 - 1) = l1 ++ rev l2 ++ l3) by (rewrite E1; apply reverse_pieces; assumption).
    rewrite X, !objf_path. exact Hlt.
Qed.
End Star.

(** ** Agreement *)
Lemma contracts_agree (cost : list nat -> Z) (n1 n2 : list nat -> Prop) cur thr eps best r1 r2 :
  (forall s, cost s - cur + eps < thr -> (n1 s <-> n2 s)) ->
  finds_improvement cost n1 cur thr eps best r1 -> finds_improvement cost n2 cur thr eps best r2 -> agree best eps r1 r2.
Proof.
  intros H F1 F2. destruct r1 as [[s1 x]|], r2 as [[s2 y]|]; cbn [finds_improvement agree] in *.
  - destruct F1 as (A1 & A2 & A3 & A4), F2 as (B1 & B2 & B3 & B4). intros Hb. specialize (A4 Hb s2). specialize (B4 Hb s1).
    assert (n1 s2) by (apply H; [lia|exact B1]). assert (n2 s1) by (apply H; [lia|exact A1]). specialize (A4 H0). specialize (B4 H1). lia.
  - destruct F1 as (A1 & A2 & A3 & _). assert (X : n2 s1) by (apply H; [lia|exact A1]). specialize (F2 s1 X). lia.
  - destruct F2 as (A1 & A2 & A3 & _). assert (X : n1 s2) by (apply H; [lia|exact A1]). specialize (F1 s2 X). lia.
  - exact I.
Qed.

Lemma inside_wrap r l1 l2 l3 : customers_only r -> wrap r = l1 ++ l2 ++ l3 -> l1 <> [] -> l3 <> [] -> customers_only l2.
Proof.
  intros Hr E N1 N3. destruct l1 as [|x l1]; [congruence|]. destruct (exists_last N3) as (q & y & ->). unfold wrap in E. cbn [app] in E. injection E as _ E.
  rewrite !app_assoc in E. apply app_inj_tail in E. destruct E as (-> & _). apply Forall_app in Hr. destruct Hr as (Hr & _). apply Forall_app in Hr. tauto.
Qed.

Lemma agree_2opt eps D first r best_delta : 0 <= eps -> symmetric D -> start_delta best_delta <= 0 -> customers_only r ->
  exists res, answered (do_naive_2opt_move eps D first (wrap r) best_delta) res /\ agree (negb first) eps res (do_2opt_move eps (wrap r) D first best_delta).
Proof.
  intros He HS Hb Hr. destruct (two_opt_contract eps D first [r] best_delta He Hb) as (res & EA & F); [constructor; auto|]. rewrite <- wrap_encode in *.
  exists res. split; [exact EA|]. eapply contracts_agree; [|exact F|apply do_2opt_contract; assumption].
  intros s Hlt. split.
  - intros (l1 & l2 & l3 & E & -> & H2). exists l1, l2, l3.
    assert (N2 : l2 <> []) by (intros ->; rewrite E in Hlt; cbn in Hlt; lia).
    split. { intros ->. destruct l2 as [|x l2]; [congruence|]. unfold wrap in E. cbn in E. injection E as <- _. inversion H2; congruence. }
    split; [exact N2|]. split; [|auto]. intros ->. destruct (exists_last N2) as (q & x & ->). unfold wrap in E. rewrite app_nil_r, app_assoc in E.
    change (0%nat :: r ++ [0%nat]) with ((0%nat :: r) ++ [0%nat]) in E. apply app_inj_tail in E. destruct E as (_ & <-). apply Forall_app in H2. destruct H2 as (_ & H2). inversion H2; congruence.
  - intros (l1 & l2 & l3 & N1 & N2 & N3 & E & ->). exists l1, l2, l3. split; [exact E|]. split; [reflexivity|]. eapply inside_wrap; eassumption.
Qed.

(** The answer for a single route of an operator applied route by route *)
Lemma single_contract ceps eps D d C L (first : bool) op (change : list nat -> list nat -> Prop) r : 0 <= eps ->
  (forall r s, change (wrap r) s -> exists r', s = wrap r' /\ Permutation r r') ->
  (forall r, customers_only r -> NoDup r -> exists res, answered (op (wrap r) None) res /\
    finds_improvement (path_cost D) (fun s => change (wrap r) s /\ keeps_limits D d C L ceps eps s) (path_cost D (wrap r)) 0 eps (negb first) res) ->
  customers_only r -> NoDup r ->
  exists res, answered (apply_as_intra_route eps op (wrap r) None) res /\
    finds_improvement (path_cost D) (fun s => change (wrap r) s /\ keeps_limits D d C L ceps eps s) (path_cost D (wrap r)) 0 eps (negb first) res.
Proof.
  intros He Hw Hop Hr HN. destruct (intra_contract ceps eps D d C L first op change He Hw Hop [r]) as (rs' & P & R & O); [constructor; auto|constructor; auto|].
  inversion P as [|? r' ? rs2 P1 P2]; subst. inversion P2; subst. inversion R as [|? ? ? ? R1 _]; subst. rewrite <- !wrap_encode in O.
  assert (Hcust : customers_only r') by (eapply customers_perm; eassumption).
  assert (HK : forall s, change (wrap r) s /\ keeps_limits D d C L ceps eps s -> exists q, s = wrap q /\ change (wrap r) (wrap q) /\ feasible D d C L ceps eps q).
  { intros s (A & B). destruct (Hw r s A) as (q & -> & Pq). exists q. split; [reflexivity|]. split; [exact A|]. apply keeps_wrap in B; [exact B|eapply customers_perm; eassumption]. }
  destruct O as [(A & E)|(A & Hlt)].
  - injection E as ->. exists None. split; [exact A|]. cbn [finds_improvement]. intros s Hs. destruct (HK s Hs) as (q & -> & Hq & Fq).
    change (path_cost D (wrap q)) with (route_cost D q). change (path_cost D (wrap r)) with (route_cost D r).
    destruct R1 as [(_ & R1)|(_ & _ & R1 & _)]; [specialize (R1 q Hq Fq); lia|lia].
  - exists (Some (wrap r', path_cost D (wrap r') - path_cost D (wrap r))). split; [exact A|]. cbn [finds_improvement].
    change (path_cost D (wrap r')) with (route_cost D r') in *. change (path_cost D (wrap r)) with (route_cost D r) in *.
    destruct R1 as [(-> & _)|(R1 & R2 & R3 & R4)]; [lia|]. split; [split; [exact R1|apply keeps_wrap; assumption]|]. split; [reflexivity|]. split; [lia|].
    intros Hb s Hs. destruct (HK s Hs) as (q & -> & Hq & Fq). specialize (R4 Hb q Hq Fq). change (path_cost D (wrap q)) with (route_cost D q). lia.
Qed.
Lemma shorter_limits ceps eps D d C L r s : (exists r', s = wrap r' /\ Permutation r r') -> customers_only r -> feasible D d C L ceps eps r ->
  path_cost D s <= path_cost D (wrap r) -> keeps_limits D d C L ceps eps s.
Proof.
  intros (r' & -> & P) Hr F Hle. apply keeps_wrap; [eapply customers_perm; eassumption|]. eapply feasible_shorter; [exact P|exact Hle|exact F].
Qed.
Lemma wrap_simple r : customers_only r -> NoDup r -> simple_tour (wrap r).
Proof.
  intros Hr HN. assert (H0 : ~ In 0%nat r) by (unfold customers_only in Hr; rewrite Forall_forall in Hr; intros X; exact (Hr _ X eq_refl)).
  split; unfold wrap; cbn [tl].
  - apply Permutation_NoDup with (l := 0%nat :: r); [apply Permutation_cons_append|constructor; assumption].
  - change (0%nat :: r ++ [0%nat]) with ((0%nat :: r) ++ [0%nat]). rewrite removelast_last. constructor; assumption.
Qed.

Lemma agree_relocate ceps eps D d C L first r : 0 <= eps -> nonneg_matrix D -> (forall n, 0 <= d n) -> within C ceps 0 ->
  customers_only r -> NoDup r -> feasible D d C L ceps eps r ->
  exists res, answered (do_naive_relocate_move ceps eps D d C L first (wrap r) None) res /\ agree (negb first) eps res (do_relocate_move eps (wrap r) D first None).
Proof.
  intros He HD Hd HC Hr HN HF.
  destruct (single_contract ceps eps D d C L first (do_naive_1point_move ceps eps D d C L first) moved_customer r He moved_wrap) as (res & EA & F); [|assumption..|].
  { intros q Hq HNq. rewrite wrap_encode. apply (one_point_contract ceps eps D d C L first He HD Hd HC [q] None (Z.le_refl 0)); [constructor; auto|cbn; rewrite app_nil_r; exact HNq]. }
  exists res. split; [exact EA|]. eapply contracts_agree; [|exact F|apply (do_relocate_contract eps (wrap r) D first None He (wrap_simple r Hr HN))].
  intros s Hlt. split.
  - intros ((l1 & n & l2 & l3 & l4 & Hn & E & E2 & N3 & N4 & ->) & _).
    assert (N1 : l1 <> []). { intros ->. unfold wrap in E. cbn in E. injection E as E _. congruence. }
    assert (N2 : l2 <> []). { intros ->. unfold wrap in E. change (0%nat :: r ++ [0%nat]) with ((0%nat :: r) ++ [0%nat]) in E. apply app_inj_tail in E. destruct E as (_ & E). congruence. }
    assert (X : (exists x, l3 = l1 ++ x /\ l2 = x ++ l4) \/ (exists x, l1 = l3 ++ x /\ l4 = x ++ l2)).
    { clear - E2. revert l3 E2. induction l1 as [|y l1 IH]; intros l3 E2; [left; exists l3; auto|]. destruct l3 as [|z l3]; [right; exists (y :: l1); auto|].
      cbn in E2. injection E2 as -> E2. destruct (IH l3 E2) as [(x & -> & ->)|(x & -> & ->)]; [left|right]; exists x; auto. }
    destruct X as [(x & -> & ->)|(x & -> & ->)].
    + exists l1, x, l4, n. assert (Nx : x <> []) by (intros ->; rewrite E in Hlt; rewrite app_nil_r in Hlt; cbn [app] in Hlt; lia).
      split; [exact N1|]. split; [exact Nx|]. split; [exact N4|]. left. split; [exact E|]. rewrite <- app_assoc. reflexivity.
    + exists l3, x, l2, n. assert (Nx : x <> []) by (intros ->; rewrite E in Hlt; rewrite app_nil_r in Hlt; cbn [app] in Hlt; lia).
      split; [exact N3|]. split; [exact Nx|]. split; [exact N2|]. right. split; [rewrite E, <- app_assoc; reflexivity|reflexivity].
  - intros HR. assert (HM : moved_customer (wrap r) s).
    { destruct HR as (l1 & l2 & l3 & b & N1 & N2 & N3 & [(E & ->)|(E & ->)]).
      - assert (Hb : b <> 0%nat). { pose proof (inside_wrap r l1 ([b] ++ l2) l3 Hr ltac:(rewrite E, <- app_assoc; reflexivity) N1 N3) as HI. inversion HI; assumption. }
        exists l1, b, (l2 ++ l3), (l1 ++ l2), l3. split; [exact Hb|]. split; [exact E|]. split; [apply app_assoc|]. split; [destruct l1; [congruence|discriminate]|]. split; [exact N3|]. rewrite <- app_assoc. reflexivity.
      - assert (Hb : b <> 0%nat). { pose proof (inside_wrap r l1 (l2 ++ [b]) l3 Hr ltac:(rewrite E, <- app_assoc; reflexivity) N1 N3) as HI. apply Forall_app in HI. destruct HI as (_ & HI). inversion HI; assumption. }
        exists (l1 ++ l2), b, l3, l1, (l2 ++ l3). split; [exact Hb|]. split; [rewrite E, <- app_assoc; reflexivity|]. split; [symmetry; apply app_assoc|]. split; [exact N1|]. split; [destruct l2; [congruence|discriminate]|]. reflexivity. }
    split; [exact HM|]. apply (shorter_limits ceps eps D d C L r s); [apply moved_wrap; exact HM|assumption..|cbn [start_delta] in Hlt; lia].
Qed.
Lemma agree_exchange ceps eps D d C L first r : 0 <= eps -> nonneg_matrix D -> (forall n, 0 <= d n) -> within C ceps 0 ->
  customers_only r -> NoDup r -> feasible D d C L ceps eps r ->
  exists res, answered (do_naive_exchange_move ceps eps D d C L first (wrap r) None) res /\ agree (negb first) eps res (do_exchange_move eps (wrap r) D first None).
Proof.
  intros He HD Hd HC Hr HN HF.
  destruct (single_contract ceps eps D d C L first (do_naive_2point_move ceps eps D d C L first) swapped_customers r He swapped_wrap) as (res & EA & F); [|assumption..|].
  { intros q Hq HNq. rewrite wrap_encode. apply (two_point_contract ceps eps D d C L first He HD Hd HC [q] None (Z.le_refl 0)). constructor; auto. }
  exists res. split; [exact EA|]. eapply contracts_agree; [|exact F|apply (do_exchange_contract eps (wrap r) D first None He (wrap_simple r Hr HN))].
  intros s Hlt. split.
  - intros ((l1 & a & l2 & b & l3 & Ha & Hb & E & ->) & _). exists l1, l2, l3, a, b.
    split. { intros ->. unfold wrap in E. cbn in E. injection E as E _. congruence. }
    split; [|split; [exact E|reflexivity]]. intros ->. unfold wrap in E. change (a :: l2 ++ [b]) with ((a :: l2) ++ [b]) in E. rewrite app_assoc in E. change (0%nat :: r ++ [0%nat]) with ((0%nat :: r) ++ [0%nat]) in E.
    apply app_inj_tail in E. destruct E as (_ & E). congruence.
  - intros (l1 & l2 & l3 & a & b & N1 & N3 & E & ->).
    pose proof (inside_wrap r l1 ([a] ++ l2 ++ [b]) l3 Hr ltac:(rewrite E; cbn [app]; rewrite <- app_assoc; reflexivity) N1 N3) as HI.
    assert (HM : swapped_customers (wrap r) (l1 ++ [b] ++ l2 ++ [a] ++ l3)).
    { exists l1, a, l2, b, l3. cbn [app] in HI. inversion HI as [|? ? Ha HI2]; subst. apply Forall_app in HI2. destruct HI2 as (_ & HI2). inversion HI2 as [|? ? Hb _]; subst.
      split; [exact Ha|]. split; [exact Hb|]. split; [exact E|reflexivity]. }
    split; [exact HM|]. apply (shorter_limits ceps eps D d C L r); [apply swapped_wrap; exact HM|assumption..|cbn [start_delta] in Hlt; lia].
Qed.

(** ** The limit on the number of iterations *)
Lemma one_op_unlimited op_of op : forall fuel sol it m, naive_loop op_of m [op] fuel sol it = naive_loop op_of None [op] fuel sol it.
Proof.
  assert (X : forall fuel sol it it' m, naive_loop op_of m [op] fuel sol it = naive_loop op_of None [op] fuel sol it').
  { induction fuel as [|fuel IH]; intros sol it it' m; [reflexivity|]. cbn [naive_loop ops_round]. destruct (op_of op sol); try reflexivity.
    destruct m as [[|m]|]; cbn [ops_round]; [apply IH| |apply IH]. destruct (Nat.eqb _ _); apply IH. }
  intros. apply X.
Qed.
Lemma two_opt_limits ceps eps D d C L rs s : Forall customers_only rs -> NoDup (concat rs) -> Forall (feasible D d C L ceps eps) rs ->
  reversed_part (encode rs) s -> path_cost D s < path_cost D (encode rs) -> keeps_limits D d C L ceps eps s.
Proof. intros H N F. apply reversed_limits. exists rs. auto. Qed.
Lemma relocate_contract ceps eps D d C L first rs best_delta : 0 <= eps -> nonneg_matrix D -> (forall n, 0 <= d n) -> within C ceps 0 ->
  Forall customers_only rs -> NoDup (concat rs) ->
  exists rs', Forall2 (@Permutation nat) rs rs' /\ Forall2 (route_improved moved_customer D d C L ceps eps (negb first)) rs rs' /\
   ((do_naive_relocate_move ceps eps D d C L first (encode rs) best_delta = Nothing /\ rs' = rs) \/
    (do_naive_relocate_move ceps eps D d C L first (encode rs) best_delta = Found (encode rs') (path_cost D (encode rs') - path_cost D (encode rs)) /\
     path_cost D (encode rs') + eps < path_cost D (encode rs))).
Proof.
  intros He HD Hd HC H HN. apply intra_contract; [exact He|exact moved_wrap| |exact H|apply nodup_concat; exact HN].
  intros q Hq HNq. rewrite wrap_encode. apply (one_point_contract ceps eps D d C L first He HD Hd HC [q] None (Z.le_refl 0)); [constructor; auto|cbn; rewrite app_nil_r; exact HNq].
Qed.
Lemma exchange_contract ceps eps D d C L first rs best_delta : 0 <= eps -> nonneg_matrix D -> (forall n, 0 <= d n) -> within C ceps 0 ->
  Forall customers_only rs -> NoDup (concat rs) ->
  exists rs', Forall2 (@Permutation nat) rs rs' /\ Forall2 (route_improved swapped_customers D d C L ceps eps (negb first)) rs rs' /\
   ((do_naive_exchange_move ceps eps D d C L first (encode rs) best_delta = Nothing /\ rs' = rs) \/
    (do_naive_exchange_move ceps eps D d C L first (encode rs) best_delta = Found (encode rs') (path_cost D (encode rs') - path_cost D (encode rs)) /\
     path_cost D (encode rs') + eps < path_cost D (encode rs))).
Proof.
  intros He HD Hd HC H HN. apply intra_contract; [exact He|exact swapped_wrap| |exact H|apply nodup_concat; exact HN].
  intros q Hq HNq. rewrite wrap_encode. apply (two_point_contract ceps eps D d C L first He HD Hd HC [q] None (Z.le_refl 0)). constructor; auto.
Qed.
