(** * The naive local search: moves within the routes *)
From Verif Require Import Spec Spec_ls Spec_inter PyBase M_util M_intra M_naive Spec_naive P_base P_scan P_intra P_naive P_naive2.
From Coq Require Import ZifyBool ZifyNat Lia Arith List Permutation.
Import ListNotations.
Local Open Scope Z_scope.

Lemma wrap_encode r : wrap r = encode [r].
Proof. unfold wrap, encode. cbn. rewrite app_nil_r. reflexivity. Qed.
Lemma customers_inj : forall r r' t t', customers_only r -> customers_only r' -> r ++ 0%nat :: t = r' ++ 0%nat :: t' -> r = r' /\ t = t'.
Proof.
  induction r as [|x r IH]; intros r' t t' H H' E; destruct r' as [|y r']; cbn [app] in E.
  - injection E as E. auto.
  - injection E as E1 E2. inversion H'; congruence.
  - injection E as E1 E2. inversion H; congruence.
  - injection E as -> E2. inversion H; subst. inversion H'; subst. destruct (IH r' t t') as (-> & ->); auto.
Qed.
Lemma keeps_wrap D d C L ceps eps r : customers_only r -> (keeps_limits D d C L ceps eps (wrap r) <-> feasible D d C L ceps eps r).
Proof.
  intros Hr. split.
  - intros (rs & E & H & F). unfold wrap in E. destruct rs as [|q rs]; [destruct r; discriminate|]. unfold encode in E. cbn [flat_map] in E. rewrite <- app_assoc in E.
    injection E as E. cbn [app] in E. inversion H; subst. destruct (customers_inj r q _ _ Hr H2 E) as (-> & _). inversion F; assumption.
  - intros F. exists [r]. rewrite wrap_encode. auto.
Qed.

Lemma moved_wrap r s : moved_customer (wrap r) s -> exists r', s = wrap r' /\ Permutation r r'.
Proof.
  intros (l1 & n & l2 & l3 & l4 & Hn & E & E2 & H3 & H4 & ->). unfold wrap in E. symmetry in E. destruct (mid_ends l1 l2 r n Hn E) as (a & b & -> & -> & ->).
  destruct l3 as [|x p]; [congruence|]. destruct (exists_last H4) as (q & y & ->). cbn [app] in E2. injection E2 as <- E2. rewrite !app_assoc in E2. apply app_inj_tail in E2. destruct E2 as (E2 & <-).
  exists (p ++ n :: q). unfold wrap. cbn [app]. rewrite <- app_assoc. split; [reflexivity|].
  rewrite <- !Permutation_middle. rewrite E2. reflexivity.
Qed.
Lemma swapped_wrap r s : swapped_customers (wrap r) s -> exists r', s = wrap r' /\ Permutation r r'.
Proof.
  intros (l1 & a & l2 & b & l3 & Ha & Hb & E & ->). unfold wrap in E. symmetry in E. destruct (mid_ends l1 (l2 ++ b :: l3) r a Ha E) as (p & q & -> & E2 & ->).
  destruct (list_eq_dec Nat.eq_dec l3 []) as [->|H3]. { apply app_inj_tail in E2. destruct E2 as (_ & E2). congruence. }
  destruct (exists_last H3) as (u & y & ->). change (b :: u ++ [y]) with ((b :: u) ++ [y]) in E2. rewrite app_assoc in E2. apply app_inj_tail in E2. destruct E2 as (<- & ->).
  exists (p ++ b :: l2 ++ a :: u). unfold wrap. cbn [app]. rewrite <- !app_assoc. cbn [app]. rewrite <- !app_assoc. split; [reflexivity|].
  apply Permutation_app_head. rewrite <- !Permutation_middle. apply perm_swap.
Qed.

Lemma routes_cost_cons D r rs : routes_cost D (r :: rs) = route_cost D r + routes_cost D rs.
Proof. reflexivity. Qed.
Lemma customers_perm r r' : Permutation r r' -> customers_only r -> customers_only r'.
Proof. intros P H. unfold customers_only in *. rewrite Forall_forall in *. intros x Hx. apply H. apply Permutation_in with (1 := Permutation_sym P) (2 := Hx). Qed.

Section Intra.
Variables (ceps eps : Z) (D : matrix) (d : demands) (C L : limit) (first : bool).
Variable op : list nat -> option Z -> naive_out.
Variable change : list nat -> list nat -> Prop.
Hypothesis He : 0 <= eps.
Hypothesis Hwrap : forall r s, change (wrap r) s -> exists r', s = wrap r' /\ Permutation r r'.
Hypothesis Hop : forall r, customers_only r -> NoDup r -> exists res, answered (op (wrap r) None) res /\
    finds_improvement (path_cost D) (fun s => change (wrap r) s /\ keeps_limits D d C L ceps eps s) (path_cost D (wrap r)) 0 eps (negb first) res.

Lemma one_route r : customers_only r -> NoDup r -> exists r', Permutation r r' /\ route_improved change D d C L ceps eps (negb first) r r' /\
  (op (wrap r) None = Nothing /\ r' = r \/
   op (wrap r) None = Found (wrap r') (route_cost D r' - route_cost D r) /\ route_cost D r' + eps < route_cost D r).
Proof.
  intros Hr HN. destruct (Hop r Hr HN) as ([[s delta]|] & EA & F); unfold answered in EA; cbn [finds_improvement] in F.
  - destruct F as ((F1 & F2) & F3 & F4 & F5). destruct (Hwrap r s F1) as (r' & -> & P). exists r'. split; [exact P|].
    change (path_cost D (wrap r')) with (route_cost D r') in *. change (path_cost D (wrap r)) with (route_cost D r) in *.
    assert (Hr' : customers_only r') by (eapply customers_perm; eassumption).
    split; [right; split; [exact F1|split; [apply keeps_wrap in F2; assumption|split; [lia|]]]|right; split; [rewrite EA, F3; reflexivity|lia]].
    intros Hb q Hq Hfq. destruct (Hwrap r _ Hq) as (q' & Eq & Pq). assert (q = q') as ->. { unfold wrap in Eq. injection Eq as Eq. apply app_inj_tail in Eq. tauto. }
    assert (Hcq : customers_only q') by (eapply customers_perm; eassumption).
    specialize (F5 Hb (wrap q') (conj Hq (proj2 (keeps_wrap D d C L ceps eps q' Hcq) Hfq))). change (path_cost D (wrap q')) with (route_cost D q') in F5. lia.
  - exists r. split; [reflexivity|]. split; [left; split; [reflexivity|]|left; auto]. intros q Hq Hfq.
    destruct (Hwrap r _ Hq) as (q' & Eq & Pq). assert (q = q') as ->. { unfold wrap in Eq. injection Eq as Eq. apply app_inj_tail in Eq. tauto. }
    assert (Hcq : customers_only q') by (eapply customers_perm; eassumption).
    specialize (F (wrap q') (conj Hq (proj2 (keeps_wrap D d C L ceps eps q' Hcq) Hfq))). change (path_cost D (wrap q')) with (route_cost D q') in F. change (path_cost D (wrap r)) with (route_cost D r) in F. lia.
Qed.

Lemma intra_loop : forall rs pre fuel total, Forall customers_only rs -> Forall (@NoDup nat) rs -> (length rs < fuel)%nat ->
  exists rs', intra_routes op fuel (length pre) (length pre + 1) (pre ++ encode rs) total = Some (pre ++ encode rs', total + (routes_cost D rs' - routes_cost D rs)) /\
    Forall2 (@Permutation nat) rs rs' /\ Forall2 (route_improved change D d C L ceps eps (negb first)) rs rs' /\
    (rs' = rs \/ routes_cost D rs' + eps < routes_cost D rs).
Proof.
  induction rs as [|r rs IH]; intros pre fuel total H HN Hf; (destruct fuel as [|fuel]; [cbn in Hf; lia|]); cbn [intra_routes].
  - exists []. replace (length pre + 1 <? length (pre ++ encode []))%nat with false by (symmetry; apply Nat.ltb_ge; rewrite app_length; cbn; lia).
    split; [f_equal; f_equal; lia|]. auto.
  - inversion H as [|? ? H1 H2]; subst. inversion HN as [|? ? N1 N2]; subst. rewrite encode_cons.
    replace (length pre + 1 <? length (pre ++ (0%nat :: r ++ encode rs)))%nat with true.
    2: { symmetry. apply Nat.ltb_lt. rewrite app_length. cbn [length]. rewrite app_length. cbn [encode length]. lia. }
    replace (skipn (length pre + 1) (pre ++ 0%nat :: r ++ encode rs)) with (r ++ encode rs) by (symmetry; apply skip_pre).
    unfold encode at 1. rewrite next_depot_route by assumption.
    set (e := (length pre + 1 + length r)%nat).
    assert (ES : slice (length pre) (e + 1) (pre ++ 0%nat :: r ++ encode rs) = wrap r).
    { unfold slice. rewrite skipn_app, skipn_all, Nat.sub_diag. cbn [app skipn]. replace (e + 1 - length pre)%nat with (S (length r + 1)) by (unfold e; lia). cbn [firstn].
      rewrite firstn_app, (firstn_all2 r) by lia. replace (length r + 1 - length r)%nat with 1%nat by lia. reflexivity. }
    rewrite ES. destruct (one_route r H1 N1) as (r' & P & RI & O).
    assert (EL : length r' = length r) by (symmetry; apply Permutation_length; exact P).
    assert (EX : exists a' t', match op (wrap r) None with Found r'0 improvement => if improvement =? 0 then (pre ++ 0%nat :: r ++ encode rs, total)
                  else (slice_to (length pre) (pre ++ 0%nat :: r ++ encode rs) ++ r'0 ++ slice_from (e + 1) (pre ++ 0%nat :: r ++ encode rs), total + improvement)
                  | _ => (pre ++ 0%nat :: r ++ encode rs, total) end = (a', t') /\ a' = (pre ++ 0%nat :: r') ++ encode rs /\ t' = total + (route_cost D r' - route_cost D r)).
    { destruct O as [(-> & ->)|(-> & Hlt)]; [eexists; eexists; split; [reflexivity|]; split; [rewrite <- app_assoc; reflexivity|lia]|].
      replace (route_cost D r' - route_cost D r =? 0) with false by lia. eexists; eexists; split; [reflexivity|]. split; [|reflexivity].
      unfold slice_to, slice_from. rewrite firstn_app, Nat.sub_diag, firstn_all, firstn_O, app_nil_r. rewrite <- app_assoc. f_equal. unfold wrap. cbn [app]. f_equal. rewrite <- app_assoc. f_equal.
      rewrite skipn_app, skipn_all2 by (unfold e; lia). replace (e + 1 - length pre)%nat with (S (length r + 1)) by (unfold e; lia). cbn [app skipn].
      rewrite skipn_app, skipn_all2 by lia. replace (length r + 1 - length r)%nat with 1%nat by lia. reflexivity. }
    destruct EX as (a' & t' & -> & -> & ->).
    replace e with (length (pre ++ 0%nat :: r')) by (rewrite app_length; cbn [length]; unfold e; lia).
    destruct (IH (pre ++ 0%nat :: r') fuel (total + (route_cost D r' - route_cost D r)) H2 N2) as (rs' & E & F1 & F2 & F3); [cbn in Hf; lia|].
    exists (r' :: rs'). rewrite E, encode_cons, <- app_assoc. cbn [app]. rewrite !routes_cost_cons. split; [f_equal; f_equal; lia|].
    split; [constructor; assumption|]. split; [constructor; assumption|].
    destruct O as [(_ & ->)|(_ & Hlt)]; [destruct F3 as [->|F3]; [left; reflexivity|right; lia]|right; destruct F3 as [->|F3]; lia].
Qed.

Lemma intra_contract rs : Forall customers_only rs -> Forall (@NoDup nat) rs ->
  exists rs', Forall2 (@Permutation nat) rs rs' /\ Forall2 (route_improved change D d C L ceps eps (negb first)) rs rs' /\
   ((apply_as_intra_route eps op (encode rs) None = Nothing /\ rs' = rs) \/
    (apply_as_intra_route eps op (encode rs) None = Found (encode rs') (path_cost D (encode rs') - path_cost D (encode rs)) /\
     path_cost D (encode rs') + eps < path_cost D (encode rs))).
Proof.
  intros H HN. destruct (intra_loop rs [] (length (encode rs)) 0 H HN (encode_longer rs)) as (rs' & E & F1 & F2 & F3). cbn [length Nat.add app] in E.
  exists rs'. split; [exact F1|]. split; [exact F2|]. unfold apply_as_intra_route. rewrite E. rewrite !path_cost_encode. cbn [start_delta Z.add].
  destruct F3 as [->|F3].
  - left. rewrite Z.sub_diag. replace (0 + eps <? 0) with false by lia. auto.
  - right. replace (routes_cost D rs' - routes_cost D rs + eps <? 0) with true by lia. auto.
Qed.
End Intra.
