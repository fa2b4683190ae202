(** * RouteData bookkeeping *)
From Verif Require Import Spec PyBase M_util M_cvrp_ops Spec_util M_routedata P_base P_validate P_cvrp P_util.
From Coq Require Import ZifyBool ZifyNat.

Lemma cum_scan_length f l : forall prev acc, length (cum_scan f prev acc l) = length l.
Proof. induction l as [|n l IH]; intros prev acc; [reflexivity|]. cbn. now rewrite IH. Qed.

Lemma cum_scan_path D l : forall prev acc i, (i < length l)%nat ->
  nth i (cum_scan D prev acc l) 0 = acc + path_cost D (prev :: firstn (i + 1) l).
Proof.
  induction l as [|n l IH]; intros prev acc i Hi; [cbn in Hi; lia|].
  destruct i as [|i]; cbn [cum_scan nth plus firstn].
  - rewrite path_cost_cons2, path_cost_one. lia.
  - rewrite IH by (cbn in Hi; lia). rewrite (path_cost_cons2 D prev n). lia.
Qed.

Lemma cum_scan_dem d l : forall prev acc i, (i < length l)%nat ->
  nth i (cum_scan (fun _ n => d n) prev acc l) 0 = acc + demand d (firstn (i + 1) l).
Proof.
  induction l as [|n l IH]; intros prev acc i Hi; [cbn in Hi; lia|].
  destruct i as [|i]; cbn [cum_scan nth plus firstn].
  - unfold demand; cbn. lia.
  - rewrite IH by (cbn in Hi; lia). rewrite demand_cons. lia.
Qed.

Lemma fwd_l_length D route : length (fwd_l D route) = length route.
Proof. destruct route as [|x t]; [reflexivity|]. unfold fwd_l, slice_from. cbn [skipn length]. now rewrite cum_scan_length. Qed.
Lemma fwd_d_length d route : length (fwd_d d route) = length route.
Proof. destruct route as [|x t]; [reflexivity|]. unfold fwd_d, slice_from. cbn [skipn length]. now rewrite cum_scan_length. Qed.

Lemma fwd_l_spec D route i : hd 1%nat route = 0%nat -> (i < length route)%nat ->
  nth i (fwd_l D route) 0 = path_cost D (firstn (i + 1) route).
Proof.
  destruct route as [|x t]; [easy|]. cbn [hd]. intros -> Hi. unfold fwd_l, slice_from. cbn [skipn].
  destruct i as [|i]; [reflexivity|]. cbn [nth plus firstn].
  rewrite cum_scan_path by (cbn in Hi; lia). lia.
Qed.

Lemma fwd_d_spec d route i : hd 1%nat route = 0%nat -> d 0%nat = 0 -> (i < length route)%nat ->
  nth i (fwd_d d route) 0 = demand d (firstn (i + 1) route).
Proof.
  destruct route as [|x t]; [easy|]. cbn [hd]. intros -> Hd Hi. unfold fwd_d, slice_from. cbn [skipn].
  destruct i as [|i]; [cbn [nth plus firstn]; rewrite demand_cons, demand_nil; lia|].
  cbn [nth plus firstn]. rewrite cum_scan_dem by (cbn in Hi; lia). rewrite demand_cons. lia.
Qed.

Lemma rwd_l_rev D route : rwd_l D route = rev (fwd_l D (rev route)).
Proof.
  unfold rwd_l, fwd_l, slice_from. destruct route as [|x t]; [reflexivity|].
  destruct (rev (x :: t)) as [|y q] eqn:E; [|reflexivity].
  assert (H : length (rev (x :: t)) = O) by now rewrite E. rewrite rev_length in H. discriminate.
Qed.
Lemma rwd_d_rev d route : rwd_d d route = rev (fwd_d d (rev route)).
Proof.
  unfold rwd_d, fwd_d, slice_from. destruct route as [|x t]; [reflexivity|].
  destruct (rev (x :: t)) as [|y q] eqn:E; [|reflexivity].
  assert (H : length (rev (x :: t)) = O) by now rewrite E. rewrite rev_length in H. discriminate.
Qed.

Lemma rwd_l_length D route : length (rwd_l D route) = length route.
Proof. now rewrite rwd_l_rev, rev_length, fwd_l_length, rev_length. Qed.
Lemma rwd_d_length d route : length (rwd_d d route) = length route.
Proof. now rewrite rwd_d_rev, rev_length, fwd_d_length, rev_length. Qed.

Lemma rwd_l_spec D route i : last route 1%nat = 0%nat -> (i < length route)%nat ->
  nth i (rwd_l D route) 0 = path_cost D (rev (skipn i route)).
Proof.
  intros Hl Hi. rewrite rwd_l_rev.
  rewrite rev_nth by now rewrite fwd_l_length, rev_length. rewrite fwd_l_length, rev_length.
  rewrite fwd_l_spec.
  - rewrite firstn_rev. do 3 f_equal. lia.
  - rewrite (hd_rev_last route 1%nat 1%nat); [exact Hl|]. intros ->. cbn in Hi. lia.
  - rewrite rev_length. lia.
Qed.

Lemma rwd_d_spec d route i : last route 1%nat = 0%nat -> d 0%nat = 0 -> (i < length route)%nat ->
  nth i (rwd_d d route) 0 = demand d (skipn i route).
Proof.
  intros Hl Hd Hi. rewrite rwd_d_rev.
  rewrite rev_nth by now rewrite fwd_d_length, rev_length. rewrite fwd_d_length, rev_length.
  rewrite fwd_d_spec.
  - rewrite firstn_rev, demand_rev. do 2 f_equal. lia.
  - rewrite (hd_rev_last route 1%nat 1%nat); [exact Hl|]. intros ->. cbn in Hi. lia.
  - exact Hd.
  - rewrite rev_length. lia.
Qed.

Lemma nodeset_wrap r : customers_only r -> route_to_nodeset (wrap r) = r.
Proof.
  intros Hc. destruct r as [|x r]; [reflexivity|].
  assert (Hx : Nat.eqb x 0 = false) by (inversion Hc; destruct x; easy).
  unfold route_to_nodeset, wrap. cbn [app].
  destruct (r ++ [0%nat]) as [|y q] eqn:E; [destruct r; discriminate|]. rewrite <- E.
  assert (EL : last (0%nat :: x :: r ++ [0%nat]) 0%nat = 0%nat).
  { rewrite app_comm_cons, app_comm_cons, last_last. reflexivity. }
  rewrite EL. cbn [Nat.eqb].
  assert (Elen : length (0%nat :: x :: r ++ [0%nat]) = (length r + 3)%nat).
  { cbn [length]. rewrite app_length. cbn. lia. }
  rewrite Elen.
  replace (start_from (0%nat :: x :: r ++ [0%nat]) (length r + 3 - 1) 0) with 1%nat.
  2:{ cbn [start_from Nat.eqb andb]. destruct (Nat.ltb_spec 0 (length r + 3 - 1)); [|lia].
      cbn [plus]. now rewrite Hx. }
  replace (end_to (0%nat :: x :: r ++ [0%nat]) 2 (length r + 3)) with 2%nat.
  2:{ replace (length r + 3)%nat with (S (length r + 2)) by lia. cbn [end_to]. rewrite Elen.
      replace (at_ (0%nat :: x :: r ++ [0%nat]) (length r + 3 - 2)) with (last (x :: r) 0%nat).
      - destruct (exists_last (l := x :: r)) as [p [z Ez]]; [easy|]. rewrite Ez, last_last.
        rewrite Ez in Hc. apply Forall_app in Hc. destruct Hc as [_ Hc]. inversion Hc. destruct z; easy.
      - unfold at_. replace (length r + 3 - 2)%nat with (S (length r)) by lia.
        change (nth (S (length r)) (0%nat :: x :: r ++ [0%nat]) 0%nat) with (nth (length r) ((x :: r) ++ [0%nat]) 0%nat).
        rewrite app_nth1 by (cbn; lia).
        clear. revert x. induction r as [|y r IH]; intros x; [reflexivity|]. 
        change (last (x :: y :: r) 0%nat) with (last (y :: r) 0%nat). rewrite IH. reflexivity. }
  unfold slice. replace (length r + 3 - 2 + 1 - 1)%nat with (length (x :: r)) by (cbn; lia).
  cbn [skipn]. rewrite app_comm_cons. rewrite <- (Nat.add_0_r (length (x :: r))).
  rewrite firstn_app_2. cbn [firstn]. now rewrite app_nil_r.
Qed.

Lemma from_routes_spec rs D d : d 0%nat = 0 ->
  from_routes (map wrap rs) D d = map (fun r => mkrd (wrap r) (route_cost D r) (Some (demand d r))) rs.
Proof.
  intros Hd. unfold from_routes. rewrite map_map. apply map_ext. intros r.
  rewrite objf_path. fold (demand d (wrap r)). f_equal. f_equal.
  unfold wrap. rewrite demand_cons, demand_app, demand_cons, demand_nil. lia.
Qed.

Lemma from_solution_spec rs D d : d 0%nat = 0 -> Forall customers_only rs ->
  from_solution (encode rs) D d =
  map (fun r => mkrd (wrap r) (route_cost D r) (Some (demand d r))) (filter nonempty rs).
Proof. intros Hd Hc. unfold from_solution. rewrite sol2routes_encode by exact Hc. now apply from_routes_spec. Qed.

Lemma to_solution_wrap (rds : list routedata) rs : map rd_route rds = map wrap rs -> to_solution rds = encode rs.
Proof.
  intros E. unfold to_solution, encode. cbn [app]. f_equal.
  revert rs E. induction rds as [|rd rds IH]; intros [|r rs] E; try discriminate; [reflexivity|].
  cbn [map] in E. injection E as E1 E2. cbn [flat_map]. rewrite E1. rewrite (IH rs E2). reflexivity.
Qed.

Lemma to_from_solution rs D d : Forall customers_only rs ->
  to_solution (from_solution (encode rs) D d) = encode (filter nonempty rs).
Proof.
  intros Hc. apply to_solution_wrap. unfold from_solution. rewrite sol2routes_encode by exact Hc.
  unfold from_routes. rewrite !map_map. reflexivity.
Qed.

Lemma sum_rd_cost rs D d : sumZ (map rd_cost (from_routes (map wrap rs) D d)) = routes_cost D rs.
Proof.
  unfold from_routes, routes_cost. rewrite !map_map. cbn [rd_cost]. f_equal. apply map_ext. intros r.
  now rewrite objf_path.
Qed.

Lemma rd_normalize_wrap r : r <> [] -> rd_normalize (wrap r) = wrap (orient1 r).
Proof.
  intros Hne. destruct r as [|x r]; [easy|]. unfold rd_normalize.
  assert (Elen : length (wrap (x :: r)) = (length r + 3)%nat).
  { unfold wrap. cbn [app length]. rewrite app_length. cbn. lia. }
  rewrite Elen.
  replace (at_ (wrap (x :: r)) (length r + 3 - 2)) with (last (x :: r) 0%nat).
  - change (at_ (wrap (x :: r)) 1) with x. unfold orient1.
    destruct (Nat.ltb _ x); [|reflexivity]. now rewrite wrap_rev.
  - unfold at_, wrap. replace (length r + 3 - 2)%nat with (S (length r)) by lia.
    change (nth (S (length r)) (0%nat :: (x :: r) ++ [0%nat]) 0%nat) with (nth (length r) ((x :: r) ++ [0%nat]) 0%nat).
    rewrite app_nth1 by (cbn; lia).
    clear. revert x. induction r as [|y r IH]; intros x; [reflexivity|].
    change (last (x :: y :: r) 0%nat) with (last (y :: r) 0%nat). rewrite IH. reflexivity.
Qed.

Lemma rd_normalize_spec r : r <> [] ->
  exists r', (r' = r \/ r' = rev r) /\ rd_normalize (wrap r) = wrap r' /\ (hd 0 r' <= last r' 0)%nat.
Proof.
  intros Hne. rewrite rd_normalize_wrap by exact Hne. exists (orient1 r).
  split; [apply orient1_cases|]. split; [reflexivity|].
  destruct r as [|x r]; [easy|]. unfold orient1.
  destruct (Nat.ltb_spec (last (x :: r) 0%nat) x) as [Hl|Hl]; [|exact Hl].
  assert (Er : forall l : list nat, hd 0%nat (rev l) = last l 0%nat).
  { induction l as [|a l IH] using rev_ind; [reflexivity|]. rewrite rev_unit, last_last. reflexivity. }
  rewrite Er. rewrite <- (rev_involutive (x :: r)) at 2.
  assert (El : last (rev (x :: r)) 0%nat = x) by (cbn [rev]; apply last_last).
  rewrite rev_involutive, El. lia.
Qed.

Lemma rd_is_empty_spec rd :
  rd_is_empty rd = true <-> rd_route rd = [] \/ rd_route rd = [0; 0]%nat.
Proof.
  unfold rd_is_empty. destruct (rd_route rd) as [|a [|b [|c l]]]; split; intros H; auto; try easy;
    try (destruct H; discriminate).
  - apply andb_true_iff in H as [Ha Hb]. apply Nat.eqb_eq in Ha, Hb. subst. now right.
  - destruct H as [H|H]; [discriminate|]. now injection H as -> ->.
Qed.
