(** * Proofs about the printed statistics *)
From Coq Require Import ZifyBool ZifyNat Lia.
From Verif Require Import Spec Spec_inter PyBase M_util M_cvrp_ops M_stats Spec_stats P_base P_util P_core P_cvrp P_savfam.

Lemma limit_within eps lim : limit_ok eps lim -> within lim eps 0.
Proof. intros (H1 & H2). destruct lim as [c|]; [intros _; lia|exact I]. Qed.

Lemma truthy_set C : limit_set C <-> exists c, truthy C = Some c.
Proof.
  unfold limit_set, truthy. destruct C as [c|].
  - destruct (Z.eqb_spec c 0) as [->|H].
    + split; [intros (x & E & Hx)|intros (x & E)]; [congruence|discriminate].
    + split; intros _; [now exists c|exists c; now split].
  - split; [intros (x & E & _)|intros (x & E)]; discriminate.
Qed.

Lemma wrap_objf D r : objf (wrap r) D = route_cost D r.
Proof. rewrite objf_path. reflexivity. Qed.

Lemma wrap_load d r : d 0%nat = 0 -> sumZ (map d (wrap r)) = demand d r.
Proof. intros H. unfold wrap, demand. cbn. rewrite map_app, sumZ_app. cbn. lia. Qed.

Ltac fin := repeat match goal with
  | H : _ \/ _ |- _ => destruct H as [H|H]
  | H : _ /\ _ |- _ => destruct H
  end; try discriminate; try (exfalso; auto; fail); repeat match goal with H : ?f ?a = ?f _ |- _ => is_var a; injection H as -> end; tauto.

Section stats.
Variables (eps : Z) (N : nat) (D Dc : matrix) (d : demands) (C L : limit) (v : Z) (rs : list (list nat)).
Hypothesis Hd0 : d 0%nat = 0.
Hypothesis HD0 : Dc 0%nat 0%nat = 0.
Hypothesis HC : limit_ok eps C.
Hypothesis HL : limit_ok eps L.
Hypothesis Hne : Forall (fun r => r <> []) rs.
Hypothesis Hin : Forall (Forall (fun n => (1 <= n < N)%nat)) rs.
Hypothesis HN : (1 <= N)%nat.

Lemma rs_customers : Forall customers_only rs.
Proof. eapply Forall_impl; [|exact Hin]. intros r H. eapply Forall_impl; [|exact H]. cbn. intros. lia. Qed.
Lemma rs_range : Forall (fun n => (n < N)%nat) (encode rs).
Proof.
  unfold encode. constructor; [lia|]. apply Forall_forall. intros x Hx. apply in_flat_map in Hx. destruct Hx as (r & Hr & Hx).
  rewrite Forall_forall in Hin. specialize (Hin r Hr). rewrite Forall_forall in Hin. apply in_app_or in Hx. destruct Hx as [Hx|[<-|[]]]; [apply Hin in Hx|]; lia.
Qed.

Lemma rs_routes : sol2routes (encode rs) = map wrap rs.
Proof. rewrite (sol2routes_encode rs rs_customers). now rewrite P_base.filter_nonempty_id. Qed.

Lemma in_rows p k0 l : In p (map (fun ir : nat * list nat => let (i, route) := ir in
     P_route (i + 1) (objf route Dc) (objf route D) (match truthy C with Some _ => Some (sumZ (map d route)) | None => None end) route)
     (combine (seq k0 (length l)) (map wrap l))) <->
  exists k r, nth_error l k = Some r /\ row_of D Dc d C p r (k0 + k + 1).
Proof.
  revert k0. induction l as [|r l IH]; intros k0.
  - cbn. split; [easy|]. intros ([|k] & r & E & _); discriminate.
  - cbn [length seq map combine]. cbn [In]. rewrite IH. clear IH. split.
    + intros [<-|(k & q & E & H)].
      * exists 0%nat, r. split; [reflexivity|]. exists (match truthy C with Some _ => Some (sumZ (map d (wrap r))) | None => None end).
        rewrite !wrap_objf. rewrite Nat.add_0_r. split; [reflexivity|]. rewrite truthy_set. split.
        -- intros (c & ->). now rewrite wrap_load.
        -- intros H. destruct (truthy C) as [c|]; [|reflexivity]. exfalso. apply H. now exists c.
      * exists (S k), q. split; [exact E|]. now replace (k0 + S k + 1)%nat with (S k0 + k + 1)%nat by lia.
    + intros ([|k] & q & E & H).
      * left. injection E as <-. destruct H as (load & -> & H1 & H2). rewrite !wrap_objf, Nat.add_0_r. f_equal. rewrite truthy_set in H1, H2.
        destruct (truthy C) as [c|]; [rewrite H1 by (now exists c); now rewrite wrap_load|]. rewrite H2; [reflexivity|]. intros (c & X). discriminate.
      * right. exists k, q. split; [exact E|]. now replace (S k0 + k + 1)%nat with (k0 + S k + 1)%nat by lia.
Qed.

Lemma statistics : exists out, print_solution_statistics eps N (encode rs) D Dc d C L v = Some out /\
  hd_error out = Some (P_solution (encode rs)) /\
  (exists b, (v <= 1 -> In (P_feasible b) out) /\ (b = true <-> covers N rs /\ Forall (feasible Dc d C L eps eps) rs)) /\
  (forall b, In (P_feasible b) out -> v <= 1 /\ (b = true <-> covers N rs /\ Forall (feasible Dc d C L eps eps) rs)) /\
  (forall b, In (P_all_served b) out -> 1 < v /\ (b = true <-> covers N rs)) /\
  (forall b, In (P_c_feasible b) out -> 1 < v /\ limit_set C /\ (b = true <-> cap_ok d C eps rs)) /\
  (forall b, In (P_l_feasible b) out -> 1 < v /\ limit_set L /\ (b = true <-> len_ok Dc L eps rs)) /\
  (1 < v -> (exists b, In (P_all_served b) out) /\ (limit_set C -> exists b, In (P_c_feasible b) out) /\ (limit_set L -> exists b, In (P_l_feasible b) out)) /\
  (forall n, In (P_K n) out <-> n = length rs) /\
  (forall c, In (P_cost c) out -> c = routes_cost Dc rs) /\
  (forall c, In (P_length c) out -> c = routes_cost D rs) /\
  (0 < v -> routes_cost Dc rs <> routes_cost D rs -> In (P_cost (routes_cost Dc rs)) out) /\
  (routes_cost Dc rs <> 0 -> In (P_length (routes_cost D rs)) out) /\
  (forall no c l q r, In (P_route no c l q r) out <-> 1 < v /\ exists k t, no = (k + 1)%nat /\ nth_error rs k = Some t /\ row_of D Dc d C (P_route no c l q r) t (k + 1)) /\
  (forall c l, In (P_total c l) out <-> 1 < v /\ c = routes_cost Dc rs /\ l = routes_cost D rs).
Proof.
  destruct (validate_encode N Dc d C L eps rs ltac:(lia) Hd0 rs_customers rs_range) as (b1 & b2 & b3 & E & E1 & E2 & E3).
  assert (E2' : b2 = true <-> cap_ok d C eps rs).
  { rewrite E2. unfold cap_ok. rewrite Forall_app. split; [tauto|]. intros H. split; [exact H|]. constructor; [|constructor]. now apply limit_within. }
  assert (E3' : b3 = true <-> len_ok Dc L eps rs).
  { rewrite E3. unfold len_ok. rewrite Forall_app. split; [tauto|]. intros H. split; [exact H|]. constructor; [|constructor]. unfold route_cost. cbn. rewrite HD0. now apply limit_within. }
  assert (Hall : b1 && b2 && b3 = true <-> covers N rs /\ Forall (feasible Dc d C L eps eps) rs).
  { rewrite !Bool.andb_true_iff, E1, E2', E3'. unfold cap_ok, len_ok, feasible. rewrite !Forall_forall. split.
    - intros ((A & B) & G). split; [exact A|]. intros r Hr. split; auto.
    - intros (A & B). split; [split; [exact A|]|]; intros r Hr; apply (B r Hr). }
  assert (HK : (count_occ Nat.eq_dec (encode rs) 0 - 1 = length rs)%nat) by (rewrite (P_savfam.count_encode rs rs_customers); lia).
  unfold print_solution_statistics. rewrite E. cbv zeta. rewrite HK, !objf_path, !path_cost_encode, rs_routes, map_length. unfold range. rewrite Nat.sub_0_r.
  eexists. split; [reflexivity|].
  assert (HT : forall X, (match truthy X with Some _ => True | None => False end) <-> limit_set X).
  { intros X. rewrite truthy_set. destruct (truthy X) as [c|]; [split; [intros _; now exists c|easy]|]. split; [easy|]. intros (c & G). discriminate. }
  pose proof (HT C) as HTC. pose proof (HT L) as HTL. clear HT.
  assert (HR : forall p, In p (map (fun ir : nat * list nat => let (i, route) := ir in
     P_route (i + 1) (objf route Dc) (objf route D) (match truthy C with Some _ => Some (sumZ (map d route)) | None => None end) route)
     (combine (seq 0 (length rs)) (map wrap rs))) <-> exists k r, nth_error rs k = Some r /\ row_of D Dc d C p r (k + 1)) by (intros p; apply (in_rows p 0 rs)).
  set (rows := map _ (combine _ _)) in *. clearbody rows.
  assert (HNR : forall p, In p rows -> exists no c l q r, p = P_route no c l q r).
  { intros p Hp. apply HR in Hp. destruct Hp as (k & r & _ & load & -> & _). repeat eexists. }
  set (sC := match truthy C with Some _ => [P_c_feasible b2] | None => [] end).
  set (sL := match truthy L with Some _ => [P_l_feasible b3] | None => [] end).
  assert (HsC : forall p, In p sC <-> limit_set C /\ p = P_c_feasible b2).
  { intros p. unfold sC. rewrite <- HTC. destruct (truthy C); cbn; intuition congruence. }
  assert (HsL : forall p, In p sL <-> limit_set L /\ p = P_l_feasible b3).
  { intros p. unfold sL. rewrite <- HTL. destruct (truthy L); cbn; intuition congruence. }
  clearbody sC sL. clear HTC HTL.
  set (cs := if _ || _ then [P_cost _] else []).
  assert (Hcs : forall p, In p cs <-> ((0 < v /\ routes_cost D rs <> routes_cost Dc rs) \/ routes_cost Dc rs = 0) /\ p = P_cost (routes_cost Dc rs)).
  { intros p. unfold cs. destruct (_ || _) eqn:Eb; cbn; split; try (intros [<-|[]]; split; [lia|reflexivity]); try (intros (_ & ->); now left); try easy.
    intros (A & _). exfalso. lia. }
  clearbody cs.
  set (ls := if negb _ then [P_length _] else []).
  assert (Hls : forall p, In p ls <-> routes_cost Dc rs <> 0 /\ p = P_length (routes_cost D rs)).
  { intros p. unfold ls. destruct (negb _) eqn:Eb; cbn; split; try (intros [<-|[]]; split; [lia|reflexivity]); try (intros (_ & ->); now left); try easy.
    intros (A & _). exfalso. lia. }
  clearbody ls.
  assert (HO : forall p, In p (([P_solution (encode rs)] ++ (if 1 <? v then [P_all_served b1] ++ sC ++ sL else [P_feasible (b1 && b2 && b3)]) ++
       [P_K (length rs)] ++ cs ++ ls ++ (if 1 <? v then [P_heading] ++ rows ++ [P_total (routes_cost Dc rs) (routes_cost D rs)] else []))) <->
     p = P_solution (encode rs) \/ (1 < v /\ (p = P_all_served b1 \/ In p sC \/ In p sL)) \/ (v <= 1 /\ p = P_feasible (b1 && b2 && b3)) \/
     p = P_K (length rs) \/ In p cs \/ In p ls \/ (1 < v /\ (p = P_heading \/ In p rows \/ p = P_total (routes_cost Dc rs) (routes_cost D rs)))).
  { intros p. rewrite !in_app_iff. destruct (Z.ltb_spec 1 v) as [Hv|Hv]; rewrite ?in_app_iff; cbn [In]; intuition (try congruence; try lia). }
  assert (HX : forall p, In p rows -> match p with P_route _ _ _ _ _ => True | _ => False end).
  { intros p Hp. apply HNR in Hp. destruct Hp as (? & ? & ? & ? & ? & ->). exact I. }
  split; [reflexivity|].
  split; [exists (b1 && b2 && b3); split; [intros Hv; apply HO; intuition|exact Hall]|].
  split.
  { intros b Hb. apply HO in Hb. rewrite HsC, HsL, Hcs, Hls in Hb. specialize (HX (P_feasible b)). cbn in HX. fin. }
  split.
  { intros b Hb. apply HO in Hb. rewrite HsC, HsL, Hcs, Hls in Hb. specialize (HX (P_all_served b)). cbn in HX. fin. }
  split.
  { intros b Hb. apply HO in Hb. rewrite HsC, HsL, Hcs, Hls in Hb. specialize (HX (P_c_feasible b)). cbn in HX. fin. }
  split.
  { intros b Hb. apply HO in Hb. rewrite HsC, HsL, Hcs, Hls in Hb. specialize (HX (P_l_feasible b)). cbn in HX. fin. }
  split.
  { intros Hv. split; [exists b1; apply HO; tauto|]. split; intros Hs; [exists b2; apply HO; rewrite HsC; tauto|exists b3; apply HO; rewrite HsL; tauto]. }
  split.
  { intros n. rewrite HO, HsC, HsL, Hcs, Hls. specialize (HX (P_K n)). cbn in HX. intuition (try discriminate; try congruence). }
  split.
  { intros c Hb. apply HO in Hb. rewrite HsC, HsL, Hcs, Hls in Hb. specialize (HX (P_cost c)). cbn in HX. intuition (try discriminate; try congruence). }
  split.
  { intros c Hb. apply HO in Hb. rewrite HsC, HsL, Hcs, Hls in Hb. specialize (HX (P_length c)). cbn in HX. intuition (try discriminate; try congruence). }
  split.
  { intros Hv Hc. apply HO. rewrite Hcs. do 4 right. left. split; [left; split; [exact Hv|congruence]|reflexivity]. }
  split.
  { intros Hc. apply HO. rewrite Hls. do 5 right. left. split; [exact Hc|reflexivity]. }
  split.
  { intros no c l q r. rewrite HO, HsC, HsL, Hcs, Hls, HR. split.
    - intros H. assert (H' : 1 < v /\ exists k t, nth_error rs k = Some t /\ row_of D Dc d C (P_route no c l q r) t (k + 1)) by (intuition (try discriminate; try congruence)).
      destruct H' as (Hv & k & t & Ek & Hrow). split; [exact Hv|]. exists k, t. split; [|now split]. destruct Hrow as (load & X & _). now injection X.
    - intros (Hv & k & t & -> & Ek & Hrow). do 6 right. split; [exact Hv|]. right; left. now exists k, t. }
  { intros c l. rewrite HO, HsC, HsL, Hcs, Hls. specialize (HX (P_total c l)). cbn in HX. intuition (try discriminate; try congruence). }
Qed.
End stats.
