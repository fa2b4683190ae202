(** * The naive local search: the search *)
From Verif Require Import Spec Spec_ls Spec_inter PyBase M_util M_intra M_naive Spec_naive P_base P_scan P_intra P_cvrp P_naive P_naive2 P_naive3.
From Coq Require Import ZifyBool ZifyNat Lia Arith List Permutation.
Import ListNotations.
Local Open Scope Z_scope.

(** Where customers that follow each other are *)
Lemma locate : forall rs l1 l2 l3, Forall customers_only rs -> encode rs = l1 ++ l2 ++ l3 -> customers_only l2 -> l2 <> [] ->
  exists rs1 a b rs2, rs = rs1 ++ (a ++ l2 ++ b) :: rs2 /\ forall l2', l1 ++ l2' ++ l3 = encode (rs1 ++ (a ++ l2' ++ b) :: rs2).
Proof.
  induction rs as [|r rs IH]; intros l1 l2 l3 H E H2 N2.
  - exfalso. destruct l2 as [|x l2]; [congruence|]. inversion H2; subst. destruct l1 as [|y [|z l1]]; cbn in E; [injection E as E _; congruence|discriminate|discriminate].
  - inversion H as [|? ? Hr Hrs]; subst. rewrite encode_cons in E.
    destruct l1 as [|y l1]. { exfalso. destruct l2 as [|x l2]; [congruence|]. cbn in E. injection E as E _. inversion H2; congruence. }
    cbn [app] in E. injection E as <- E.
    (* r ++ encode rs = l1 ++ l2 ++ l3 *)
    destruct (le_lt_dec (length l1) (length r)) as [Hl|Hl].
    + assert (exists a, r = l1 ++ a) as (a & ->).
      { exists (skipn (length l1) r). rewrite <- (firstn_skipn (length l1) r) at 1. f_equal. apply (f_equal (firstn (length l1))) in E.
        rewrite firstn_app, (proj2 (Nat.sub_0_le _ _) Hl), firstn_O, app_nil_r, firstn_app, Nat.sub_diag, firstn_all, firstn_O, app_nil_r in E. exact E. }
      rewrite <- app_assoc in E. apply app_inv_head in E. unfold encode in E.
      destruct (le_lt_dec (length l2) (length a)) as [Hl2|Hl2].
      * assert (exists b, a = l2 ++ b) as (b & ->).
        { exists (skipn (length l2) a). rewrite <- (firstn_skipn (length l2) a) at 1. f_equal. apply (f_equal (firstn (length l2))) in E.
          rewrite firstn_app, (proj2 (Nat.sub_0_le _ _) Hl2), firstn_O, app_nil_r, firstn_app, Nat.sub_diag, firstn_all, firstn_O, app_nil_r in E. exact E. }
        rewrite <- app_assoc in E. apply app_inv_head in E. exists [], l1, b, rs. split; [reflexivity|].
        intros l2'. rewrite <- E. cbn [app]. rewrite encode_cons. unfold encode. rewrite <- !app_assoc. reflexivity.
      * exfalso. assert (X := f_equal (fun l => nth (length a) l 1%nat) E). cbn beta in X. rewrite app_nth2, Nat.sub_diag, app_nth1 in X by lia. cbn [nth] in X.
        unfold customers_only in H2. rewrite Forall_forall in H2. apply (H2 (nth (length a) l2 1%nat)); [apply nth_In; lia|congruence].
    + assert (exists q, l1 = r ++ 0%nat :: q) as (q & ->).
      { exists (skipn (S (length r)) l1). rewrite <- (firstn_skipn (S (length r)) l1) at 1. change (r ++ 0%nat :: skipn (S (length r)) l1) with (r ++ [0%nat] ++ skipn (S (length r)) l1). rewrite app_assoc. f_equal.
        apply (f_equal (firstn (S (length r)))) in E. rewrite !(firstn_app (S (length r))), (firstn_all2 r) in E by lia.
        rewrite (proj2 (Nat.sub_0_le (S (length r)) (length l1))), firstn_O, app_nil_r in E by lia. rewrite <- E. replace (S (length r) - length r)%nat with 1%nat by lia. reflexivity. }
      rewrite <- app_assoc in E. apply app_inv_head in E. change ((0%nat :: q) ++ l2 ++ l3) with ((0%nat :: q) ++ l2 ++ l3) in E.
      destruct (IH (0%nat :: q) l2 l3 Hrs E H2 N2) as (rs1 & a & b & rs2 & -> & F). exists (r :: rs1), a, b, rs2. split; [reflexivity|].
      intros l2'. cbn [app]. rewrite encode_cons, <- (F l2'). cbn [app]. rewrite <- app_assoc. reflexivity.
Qed.

Section Search.
Variables (ceps eps : Z) (D : matrix) (d : demands) (C L : limit) (first : bool).
Hypothesis He : 0 <= eps.
Hypothesis HD : nonneg_matrix D.
Hypothesis Hd : forall n, 0 <= d n.
Hypothesis HC : within C ceps 0.

Definition good (s : list nat) : Prop := exists rs, s = encode rs /\ Forall customers_only rs /\ NoDup (concat rs) /\ Forall (feasible D d C L ceps eps) rs.

Lemma good_limits s : good s -> keeps_limits D d C L ceps eps s.
Proof. intros (rs & E & H & _ & F). exists rs. auto. Qed.
Lemma limits_good s s' : good s -> Permutation s s' -> keeps_limits D d C L ceps eps s' -> good s'.
Proof.
  intros (rs & E & H & N & F) P (rs' & E' & H' & F'). exists rs'. split; [exact E'|]. split; [exact H'|]. split; [|exact F'].
  assert (X : Permutation (customers s) (customers s')). { clear - P. unfold customers. induction P; cbn [filter]; [constructor|destruct (negb _); [constructor|]; assumption|destruct (negb (Nat.eqb y 0)), (negb (Nat.eqb x 0)); try reflexivity; apply perm_swap|etransitivity; eassumption]. }
  rewrite E, E', !customers_encode in X by assumption. eapply Permutation_NoDup; eassumption.
Qed.
Lemma moved_perm s s' : moved_customer s s' -> Permutation s s'.
Proof. intros (l1 & n & l2 & l3 & l4 & _ & -> & E & _ & _ & ->). rewrite <- !Permutation_middle, E. reflexivity. Qed.
Lemma swapped_perm s s' : swapped_customers s s' -> Permutation s s'.
Proof. intros (l1 & a & l2 & b & l3 & _ & _ & -> & ->). apply Permutation_app_head. rewrite <- !Permutation_middle. apply perm_swap. Qed.
Lemma reversed_perm s s' : reversed_part s s' -> Permutation s s'.
Proof. intros (l1 & l2 & l3 & -> & -> & _). apply Permutation_app_head, Permutation_app_tail, Permutation_rev. Qed.

Lemma feasible_shorter r r' : Permutation r r' -> route_cost D r' <= route_cost D r -> feasible D d C L ceps eps r -> feasible D d C L ceps eps r'.
Proof. intros P H (A & B). split; [rewrite <- (demand_perm d r r' P); exact A|eapply within_le; eassumption]. Qed.
Lemma routes_cost_app' a b : routes_cost D (a ++ b) = routes_cost D a + routes_cost D b.
Proof. unfold routes_cost. rewrite map_app. unfold sumZ. induction (map (route_cost D) a) as [|x t IH]; cbn [app fold_right]; lia. Qed.

(** A shorter reversal keeps the limits *)
Lemma reversed_limits s s' : good s -> reversed_part s s' -> path_cost D s' < path_cost D s -> keeps_limits D d C L ceps eps s'.
Proof.
  intros (rs & -> & H & N & F) (l1 & l2 & l3 & E & -> & H2) Hlt. destruct (list_eq_dec Nat.eq_dec l2 []) as [->|N2]; [rewrite E in Hlt; cbn in Hlt; lia|].
  destruct (locate rs l1 l2 l3 H E H2 N2) as (rs1 & a & b & rs2 & -> & G). rewrite (G (rev l2)) in *. exists (rs1 ++ (a ++ rev l2 ++ b) :: rs2). split; [reflexivity|].
  assert (P : Permutation (a ++ l2 ++ b) (a ++ rev l2 ++ b)) by (apply Permutation_app_head, Permutation_app_tail, Permutation_rev).
  rewrite !path_cost_encode, !routes_cost_app', !routes_cost_cons in Hlt.
  apply Forall_app in H. destruct H as (Ha & Hb). inversion Hb; subst. apply Forall_app in F. destruct F as (Fa & Fb). inversion Fb; subst.
  split; apply Forall_app; split; try assumption; constructor; try assumption.
  - eapply customers_perm; eassumption.
  - eapply feasible_shorter; [exact P|lia|assumption].
Qed.

Lemma nodup_concat (rs : list (list nat)) : NoDup (concat rs) -> Forall (@NoDup nat) rs.
Proof.
  induction rs as [|r rs IH]; intros H; [constructor|]. cbn [concat] in H. constructor.
  - clear IH. revert H. generalize (concat rs). intros q. induction r as [|x r IH]; intros H; [constructor|]. cbn [app] in H. inversion H as [|? ? H1 H2]; subst. constructor; [intros X; apply H1, in_or_app; left; exact X|apply IH; assumption].
  - apply IH. clear IH. induction r as [|x r IH]; [exact H|]. cbn [app] in H. inversion H; subst. apply IH. assumption.
Qed.
Lemma perms_encode : forall rs rs', Forall2 (@Permutation nat) rs rs' -> Permutation (encode rs) (encode rs').
Proof.
  induction 1 as [|r r' rs rs' P F IH]; [reflexivity|]. rewrite !encode_cons. constructor. apply Permutation_app; assumption.
Qed.
Lemma perms_customers : forall rs rs', Forall2 (@Permutation nat) rs rs' -> Forall customers_only rs -> Forall customers_only rs'.
Proof. induction 1 as [|r r' rs rs' P F IH]; intros H; [constructor|]. inversion H; subst. constructor; [eapply customers_perm; eassumption|apply IH; assumption]. Qed.
Lemma improved_feasible change best : forall rs rs', Forall2 (route_improved change D d C L ceps eps best) rs rs' -> Forall (feasible D d C L ceps eps) rs -> Forall (feasible D d C L ceps eps) rs'.
Proof. induction 1 as [|r r' rs rs' P F IH]; intros H; [constructor|]. inversion H; subst. constructor; [destruct P as [(-> & _)|(_ & P & _)]; assumption|apply IH; assumption]. Qed.

(** No improvement on any route *)
Lemma improved_none change best rs s : Forall2 (route_improved change D d C L ceps eps best) rs rs -> Forall customers_only rs ->
  (forall r r', change (wrap r) (wrap r') -> Permutation r r') ->
  within_route change (encode rs) s -> keeps_limits D d C L ceps eps s -> path_cost D (encode rs) <= path_cost D s + eps.
Proof.
  intros F H HP (rs1 & r & r' & rs2 & E & -> & Hc & H1 & H2) (q & Eq & Hq & Fq).
  apply encode_inj in E; [|assumption..]. subst rs. apply encode_inj in Eq; [|assumption..]. subst q.
  apply Forall2_app_inv_l in F. destruct F as (u & v & F1 & F2 & E). inversion F2 as [|? r2 ? v2 F3 F4]; subst.
  assert (Hl : length rs1 = length u) by (clear - F1; induction F1; cbn; congruence).
  assert (X : rs1 = u /\ r :: rs2 = r2 :: v2). { revert Hl E. clear. revert u. induction rs1 as [|x rs1 IH]; intros [|y u] Hl E; cbn in *; try discriminate; [auto|]. injection E as -> E. injection Hl as Hl. destruct (IH u Hl E) as (-> & X). auto. }
  destruct X as (_ & X). injection X as <- <-. rewrite !path_cost_encode, !routes_cost_app', !routes_cost_cons.
  apply Forall_app in Fq. destruct Fq as (_ & Fq). inversion Fq as [|? ? Fr' _]; subst.
  destruct F3 as [(_ & F3)|(_ & _ & F3 & _)]; [specialize (F3 r' Hc Fr'); lia|lia].
Qed.

Notation run := (fun op s => run_op ceps eps D d C L first op s None).
Lemma op_step op s : works op -> good s ->
  (run op s = Nothing /\ forall z, change_of op s z -> keeps_limits D d C L ceps eps z -> path_cost D s <= path_cost D z + eps) \/
  (exists z delta, run op s = Found z delta /\ good z /\ Permutation s z /\ delta = path_cost D z - path_cost D s /\ delta + eps < 0).
Proof.
  intros (W1 & W2) HG. pose proof HG as (rs & E & H & N & F).
  assert (FI : forall out (nbr : list nat -> Prop), (forall z, nbr z -> Permutation s z /\ keeps_limits D d C L ceps eps z) ->
    (exists res, answered out res /\ finds_improvement (path_cost D) nbr (path_cost D s) 0 eps (negb first) res) ->
    (out = Nothing /\ forall z, nbr z -> path_cost D s <= path_cost D z + eps) \/
    (exists z delta, out = Found z delta /\ good z /\ Permutation s z /\ delta = path_cost D z - path_cost D s /\ delta + eps < 0)).
  { intros out nbr Hn ([[z delta]|] & EA & FI); unfold answered in EA; cbn [finds_improvement] in FI.
    - right. destruct FI as (F1 & F2 & F3 & _). destruct (Hn z F1) as (P & K). exists z, delta. split; [exact EA|]. split; [eapply limits_good; eassumption|]. auto.
    - left. split; [exact EA|]. intros z Hz. specialize (FI z Hz). lia. }
  destruct op; try congruence; cbn [run_op change_of].
  - (* 2-opt *)
    destruct (two_opt_contract eps D first rs None He (Z.le_refl 0) H) as ([[z delta]|] & EA & FI2); rewrite <- E in *; unfold answered in EA; cbn [finds_improvement start_delta] in FI2.
    + right. destruct FI2 as (F1 & F2 & F3 & _). exists z, delta. split; [exact EA|]. split; [|split; [apply reversed_perm, F1|auto]].
      apply limits_good with (s := s); [assumption|apply reversed_perm, F1|]. apply reversed_limits with (s := s); [assumption..|lia].
    + left. split; [exact EA|]. intros z Hz _. specialize (FI2 z Hz). lia.
  - destruct (FI (do_naive_1point_move ceps eps D d C L first s None) _ (fun z Hz => conj (moved_perm s z (proj1 Hz)) (proj2 Hz)) ltac:(rewrite E; apply (one_point_contract ceps eps D d C L first He HD Hd HC rs None (Z.le_refl 0) H N))) as [(A & B)|X]; [left|right; exact X].
    split; [exact A|]. intros z Hz Kz. apply B. auto.
  - (* relocate *)
    destruct (intra_contract ceps eps D d C L first (do_naive_1point_move ceps eps D d C L first) moved_customer He moved_wrap
      ltac:(intros r Hr HNr; rewrite wrap_encode; apply (one_point_contract ceps eps D d C L first He HD Hd HC [r] None (Z.le_refl 0)); [constructor; auto|cbn; rewrite app_nil_r; exact HNr])
      rs H (nodup_concat rs N)) as (rs' & P & R & O). unfold do_naive_relocate_move. rewrite E. destruct O as [(A & ->)|(A & B)].
    + left. split; [exact A|]. intros z Hz Kz. eapply improved_none; [exact R|exact H| |exact Hz|exact Kz].
      intros r r' X. destruct (moved_wrap r _ X) as (q & Eq & Pq). unfold wrap in Eq. injection Eq as Eq. apply app_inj_tail in Eq. destruct Eq as (-> & _). exact Pq.
    + right. exists (encode rs'), (path_cost D (encode rs') - path_cost D (encode rs)). split; [exact A|]. split; [|split; [apply perms_encode; exact P|split; [reflexivity|lia]]].
      apply limits_good with (s := s); [assumption|rewrite E; apply perms_encode; exact P|]. exists rs'. split; [reflexivity|]. split; [eapply perms_customers; eassumption|eapply improved_feasible; eassumption].
  - destruct (FI (do_naive_2point_move ceps eps D d C L first s None) _ (fun z Hz => conj (swapped_perm s z (proj1 Hz)) (proj2 Hz)) ltac:(rewrite E; apply (two_point_contract ceps eps D d C L first He HD Hd HC rs None (Z.le_refl 0) H))) as [(A & B)|X]; [left|right; exact X].
    split; [exact A|]. intros z Hz Kz. apply B. auto.
  - (* exchange *)
    destruct (intra_contract ceps eps D d C L first (do_naive_2point_move ceps eps D d C L first) swapped_customers He swapped_wrap
      ltac:(intros r Hr HNr; rewrite wrap_encode; apply (two_point_contract ceps eps D d C L first He HD Hd HC [r] None (Z.le_refl 0)); constructor; auto)
      rs H (nodup_concat rs N)) as (rs' & P & R & O). unfold do_naive_exchange_move. rewrite E. destruct O as [(A & ->)|(A & B)].
    + left. split; [exact A|]. intros z Hz Kz. eapply improved_none; [exact R|exact H| |exact Hz|exact Kz].
      intros r r' X. destruct (swapped_wrap r _ X) as (q & Eq & Pq). unfold wrap in Eq. injection Eq as Eq. apply app_inj_tail in Eq. destruct Eq as (-> & _). exact Pq.
    + right. exists (encode rs'), (path_cost D (encode rs') - path_cost D (encode rs)). split; [exact A|]. split; [|split; [apply perms_encode; exact P|split; [reflexivity|lia]]].
      apply limits_good with (s := s); [assumption|rewrite E; apply perms_encode; exact P|]. exists rs'. split; [reflexivity|]. split; [eapply perms_customers; eassumption|eapply improved_feasible; eassumption].
Qed.

Variable max_iterations : option nat.
Lemma round_step : forall ops s it imp, (forall op, In op ops -> works op) -> good s ->
  exists s' it' imp', ops_round run max_iterations ops s it imp = inl (s', it', imp') /\ good s' /\ Permutation s s' /\
   ((imp' = imp /\ s' = s /\ forall op, In op ops -> forall z, change_of op s z -> keeps_limits D d C L ceps eps z -> path_cost D s <= path_cost D z + eps) \/
    (imp' = true /\ path_cost D s' + eps < path_cost D s)).
Proof.
  induction ops as [|op ops IH]; intros s it imp HW HG; cbn [ops_round].
  - exists s, it, imp. split; [reflexivity|]. split; [exact HG|]. split; [reflexivity|]. left. split; [reflexivity|]. split; [reflexivity|]. intros op [].
  - destruct (op_step op s (HW op (or_introl eq_refl)) HG) as [(A & B)|(z & delta & A & G & P & Ed & Hlt)]; rewrite A.
    + destruct (IH s it imp (fun o Ho => HW o (or_intror Ho)) HG) as (s' & it' & imp' & E & G' & P' & O). exists s', it', imp'. split; [exact E|]. split; [exact G'|]. split; [exact P'|].
      destruct O as [(O1 & O2 & O3)|O]; [left|right; exact O]. split; [exact O1|]. split; [exact O2|]. intros o [<-|Ho]; [exact B|apply O3; exact Ho].
    + destruct (match max_iterations with Some (S m) => Nat.eqb (S it) (S m) | _ => false end).
      * exists z, (S it), true. split; [reflexivity|]. split; [exact G|]. split; [exact P|]. right. split; [reflexivity|lia].
      * destruct (IH z (S it) true (fun o Ho => HW o (or_intror Ho)) G) as (s' & it' & imp' & E & G' & P' & O). exists s', it', imp'. split; [exact E|]. split; [exact G'|]. split; [etransitivity; eassumption|].
        right. destruct O as [(O1 & -> & _)|(O1 & O2)]; (split; [assumption|lia]).
Qed.
Lemma search_step ops : (forall op, In op ops -> works op) -> forall n s it, (Z.to_nat (path_cost D s) < n)%nat -> good s ->
  exists s', (forall fuel, (n <= fuel)%nat -> naive_loop run max_iterations ops fuel s it = Some (SearchDone s')) /\ good s' /\ Permutation s s' /\
   (s' = s \/ path_cost D s' + eps < path_cost D s) /\
   forall op, In op ops -> forall z, change_of op s' z -> keeps_limits D d C L ceps eps z -> path_cost D s' <= path_cost D z + eps.
Proof.
  intros HW. induction n as [|n IH]; intros s it Hn HG; [lia|].
  destruct (round_step ops s it false HW HG) as (s1 & it1 & imp1 & E & G1 & P1 & O). destruct O as [(-> & -> & O)|(-> & O)].
  - exists s. split; [|split; [exact HG|split; [reflexivity|split; [left; reflexivity|exact O]]]].
    intros fuel Hf. destruct fuel as [|fuel]; [lia|]. cbn [naive_loop]. rewrite E. reflexivity.
  - assert (0 <= path_cost D s1) by (apply (path_nonneg D d); assumption). destruct (IH s1 it1) as (s' & F & G' & P' & O' & Q); [lia|exact G1|].
    exists s'. split; [|split; [exact G'|split; [etransitivity; eassumption|split; [right; destruct O' as [->|O']; lia|exact Q]]]].
    intros fuel Hf. destruct fuel as [|fuel]; [lia|]. cbn [naive_loop]. rewrite E. apply F. lia.
Qed.
End Search.

Lemma search_result ceps eps D d C L first ls_ops rs max_iterations : 0 <= eps -> nonneg_matrix D -> (forall n, 0 <= d n) -> within C ceps 0 ->
  (forall op, In op ls_ops -> works op) -> Forall customers_only rs -> NoDup (concat rs) -> Forall (feasible D d C L ceps eps) rs ->
  exists rs' fuel0, (forall fuel, (fuel0 <= fuel)%nat -> do_naive_local_search ceps eps ls_ops (encode rs) D d C L first max_iterations fuel = Some (SearchDone (encode rs'))) /\
    Permutation (encode rs) (encode rs') /\ Forall customers_only rs' /\ Forall (feasible D d C L ceps eps) rs' /\
    (rs' = rs \/ routes_cost D rs' + eps < routes_cost D rs) /\
    forall op, In op ls_ops -> forall s, change_of op (encode rs') s -> keeps_limits D d C L ceps eps s -> path_cost D (encode rs') <= path_cost D s + eps.
Proof.
  intros He HD Hd HC HW H N F.
  destruct (search_step ceps eps D d C L first He HD Hd HC max_iterations ls_ops HW (S (Z.to_nat (path_cost D (encode rs)))) (encode rs) 0%nat) as (s' & E & (rs' & -> & H' & _ & F') & P & O & Q); [lia|exists rs; auto|].
  exists rs', (S (Z.to_nat (path_cost D (encode rs)))). split; [exact E|]. split; [exact P|]. split; [exact H'|]. split; [exact F'|]. split; [|exact Q].
  rewrite !path_cost_encode in O. destruct O as [O|O]; [left; apply encode_inj in O; assumption|right; exact O].
Qed.
