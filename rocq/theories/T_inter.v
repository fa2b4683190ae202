(** * Properties C17-C22: moves between routes *)
From Verif Require Import Spec Spec_ls Spec_inter PyBase M_util M_routedata M_intra M_inter
     P_inter P_inter2 P_inter3 T_intra.

(** Example data: exact route data, demands, and a matrix given by its upper triangle. *)
Definition ex_rd (D : matrix) (d : demands) (r : list nat) : routedata :=
  mkrd (wrap r) (route_cost D r) (Some (demand d r)).
Example ex_rd_exact : forall D d C r, exact_rd D d C r (ex_rd D d r).
Proof. intros. repeat split. Qed.
Definition ex_d : demands := Z.of_nat.
Definition ex_tri (f : nat -> nat -> Z) : matrix :=
  fun i j => if Nat.eqb i j then 0 else f (Nat.min i j) (Nat.max i j).
Example ex_tri_symmetric : forall f, symmetric (ex_tri f).
Proof. intros f i j. unfold ex_tri. now rewrite Nat.eqb_sym, Nat.min_comm, Nat.max_comm. Qed.

(** ** C17 *)
Theorem C17_two_opt_star_contract :
  forall eps rd1 rd2 D d C L first r1 r2,
    rd_route rd1 = wrap r1 -> rd_route rd2 = wrap r2 -> symmetric D -> d 0%nat = 0 ->
    forall best_delta, 0 <= eps ->
    op_contract D routes_of (nbr_2optstar D d C L eps r1 r2) [r1; r2] (start_delta best_delta) eps (negb first)
      (do_2optstar_move eps rd1 rd2 D d C L first best_delta).
Proof. exact do_2optstar_contract. Qed.
Print Assumptions C17_two_opt_star_contract.

Theorem C17_two_opt_star_result :
  forall eps rd1 rd2 D d C L first best_delta r1 r2 rds delta,
    0 <= eps -> symmetric D -> d 0%nat = 0 -> rd_route rd1 = wrap r1 -> rd_route rd2 = wrap r2 ->
    do_2optstar_move eps rd1 rd2 D d C L first best_delta = Some (rds, delta) ->
    exists r1' r2', map rd_route rds = [wrap r1'; wrap r2'] /\ Permutation (r1 ++ r2) (r1' ++ r2') /\
      delta = routes_cost D [r1'; r2'] - routes_cost D [r1; r2] /\
      feasible D d C L eps eps r1' /\ feasible D d C L eps eps r2'.
Proof. exact two_opt_star_result. Qed.
Print Assumptions C17_two_opt_star_result.

Example C17_finds :
  option_map (fun p => (map rd_route (fst p), snd p))
    (do_2optstar_move 0 (ex_rd exM2 ex_d [1; 3]%nat) (ex_rd exM2 ex_d [2; 4; 5]%nat) exM2 ex_d (Some 20) None false None)
  = Some ([[0; 1; 3; 5; 4; 2; 0]%nat; [0; 0]%nat], -30).
Proof. vm_compute. reflexivity. Qed.

(** The stored costs and demands are not those of the returned routes, although the input
    data are exact: neither for the first nor for the second returned route. *)
Theorem C17_stored_data_refuted :
  exists D d C r1 r2 rd1' rd2' r1' r2' delta,
    symmetric D /\ triangle D /\ limit_set C /\
    do_2optstar_move 0 (ex_rd D d r1) (ex_rd D d r2) D d C None true None = Some ([rd1'; rd2'], delta) /\
    rd_route rd1' = wrap r1' /\ rd_route rd2' = wrap r2' /\
    rd_cost rd1' <> route_cost D r1' /\ rd_cost rd2' <> route_cost D r2' /\
    rd_demand rd2' <> Some (demand d r2').
Proof.
  exists exM, ex_d, (Some 20), [1; 6]%nat, [2; 4; 5]%nat.
  do 2 eexists. exists []%nat, [6; 1; 2; 4; 5]%nat. eexists.
  split; [exact (proj1 exM_symmetric)|]. split; [intros i j k; unfold exM; lia|]. split; [discriminate|].
  split; [vm_compute; reflexivity|]. vm_compute. repeat split; discriminate.
Qed.
Print Assumptions C17_stored_data_refuted.

(** ** C18 *)
Theorem C18_one_point_contract :
  forall eps rd1 rd2 D d C L first r1 r2,
    exact_rd D d C r1 rd1 -> exact_rd D d C r2 rd2 -> forall best_delta, 0 <= eps ->
    op_contract D (Forall2 (exact_rd D d C)) (nbr_1point D d C L eps r1 r2) [r1; r2]
      (start_delta best_delta) eps (negb first) (do_1point_move eps rd1 rd2 D d C L first best_delta).
Proof. exact do_1point_contract. Qed.
Print Assumptions C18_one_point_contract.

Theorem C18_one_point_result :
  forall eps rd1 rd2 D d C L first best_delta r1 r2 rds delta,
    0 <= eps -> exact_rd D d C r1 rd1 -> exact_rd D d C r2 rd2 ->
    do_1point_move eps rd1 rd2 D d C L first best_delta = Some (rds, delta) ->
    exists r1' r2', Forall2 (exact_rd D d C) [r1'; r2'] rds /\ Permutation (r1 ++ r2) (r1' ++ r2') /\
      delta = routes_cost D [r1'; r2'] - routes_cost D [r1; r2] /\
      feasible D d C L eps eps r2' /\
      ((forall n, 0 <= d n) -> within C eps (demand d r1) -> within C eps (demand d r1')) /\
      (triangle D -> within L eps (route_cost D r1) -> within L eps (route_cost D r1')).
Proof. exact one_point_result. Qed.
Print Assumptions C18_one_point_result.

Example C18_finds :
  do_1point_move 0 (ex_rd exM2 ex_d [1; 3]%nat) (ex_rd exM2 ex_d [2; 4; 5]%nat) exM2 ex_d (Some 20) (Some 100) false None
  = Some ([ex_rd exM2 ex_d [1]%nat; ex_rd exM2 ex_d [2; 4; 5; 3]%nat], -24) /\
  do_1point_move 0 (ex_rd exM2 ex_d [1; 3]%nat) (ex_rd exM2 ex_d [2; 4; 5]%nat) exM2 ex_d (Some 11) None false None = None.
Proof. vm_compute. auto. Qed.

(** Without the triangle inequality the giving route may become too long. *)
Definition ex_giver : matrix := ex_tri (fun i j => match i, j with
  | 0%nat, 1%nat | 0%nat, 3%nat => 4 | 1%nat, 3%nat => 7 | 0%nat, 2%nat | 2%nat, 4%nat => 1
  | 0%nat, 4%nat => 6 | 1%nat, 4%nat | 3%nat, 4%nat => 20 | _, _ => 2 end).
Theorem C18_giving_route_length_refuted :
  exists D d L r1 r2 rds r1' r2' delta, symmetric D /\ nonneg_matrix D /\
    feasible D d None L 0 0 r1 /\ feasible D d None L 0 0 r2 /\
    do_1point_move 0 (ex_rd D d r1) (ex_rd D d r2) D d None L true None = Some (rds, delta) /\
    map rd_route rds = [wrap r1'; wrap r2'] /\ ~ within L 0 (route_cost D r1').
Proof.
  exists ex_giver, ex_d, (Some 12), [1; 2; 3]%nat, [4]%nat. eexists. exists [1; 3]%nat, [2; 4]%nat. eexists.
  split; [apply ex_tri_symmetric|]. split.
  { intros i j. unfold ex_giver, ex_tri. destruct (Nat.eqb i j); [lia|].
    destruct (Nat.min i j) as [|[|[|[|]]]]; destruct (Nat.max i j) as [|[|[|[|[|]]]]]; lia. }
  split; [split; vm_compute; intuition discriminate|]. split; [split; vm_compute; intuition discriminate|].
  split; [vm_compute; reflexivity|]. split; [vm_compute; reflexivity|].
  vm_compute. intros H. apply (H ltac:(discriminate)). reflexivity.
Qed.
Print Assumptions C18_giving_route_length_refuted.

(** ** C19 *)
Theorem C19_two_point_contract :
  forall eps rd1 rd2 D d C L first r1 r2,
    exact_rd D d C r1 rd1 -> exact_rd D d C r2 rd2 -> forall best_delta, 0 <= eps ->
    op_contract D (Forall2 (exact_rd D d C)) (nbr_2point D d C L eps r1 r2) [r1; r2]
      (start_delta best_delta) eps (negb first) (do_2point_move eps rd1 rd2 D d C L first best_delta).
Proof. exact do_2point_contract. Qed.
Print Assumptions C19_two_point_contract.

Theorem C19_two_point_result :
  forall eps rd1 rd2 D d C L first best_delta r1 r2 rds delta,
    0 <= eps -> exact_rd D d C r1 rd1 -> exact_rd D d C r2 rd2 ->
    do_2point_move eps rd1 rd2 D d C L first best_delta = Some (rds, delta) ->
    exists r1' r2', Forall2 (exact_rd D d C) [r1'; r2'] rds /\ Permutation (r1 ++ r2) (r1' ++ r2') /\
      delta = routes_cost D [r1'; r2'] - routes_cost D [r1; r2] /\
      feasible D d C L eps 0 r1' /\ feasible D d C L eps 0 r2'.
Proof. exact two_point_result. Qed.
Print Assumptions C19_two_point_result.

Example C19_finds :
  do_2point_move 0 (ex_rd exM2 ex_d [1; 4]%nat) (ex_rd exM2 ex_d [2; 3; 5]%nat) exM2 ex_d (Some 20) (Some 100) false None
  = Some ([ex_rd exM2 ex_d [1; 3]%nat; ex_rd exM2 ex_d [2; 4; 5]%nat], -12) /\
  do_2point_move 0 (ex_rd exM2 ex_d [1; 4]%nat) (ex_rd exM2 ex_d [2; 3; 5]%nat) exM2 ex_d (Some 20) (Some 10) false None = None.
Proof. vm_compute. auto. Qed.

(** ** C20 *)
Theorem C20_insert_list :
  forall eps ns rd D d C L first best_delta r rds delta,
    exact_rd D d C r rd ->
    do_insert_customers eps ns rd D d C L first best_delta = Some (rds, delta) ->
    exists q rd' ns', rds = [empty_rd; rd'] /\ exact_rd D d C q rd' /\
      Permutation ns ns' /\ interleaved r ns' q /\ delta = route_cost D q - route_cost D r /\
      within C eps (demand d q) /\ (ns <> [] -> within L eps (route_cost D q)) /\
      (ns <> [] -> match best_delta with Some b => delta + eps <= b | None => True end).
Proof. exact insert_list_result. Qed.
Print Assumptions C20_insert_list.

Theorem C20_insert_route :
  forall eps urd rd D d C L first best_delta ur r rds delta,
    exact_rd D d C ur urd -> exact_rd D d C r rd ->
    do_insert_route eps urd rd D d C L first best_delta = Some (rds, delta) ->
    exists q rd' ur', rds = [empty_rd; rd'] /\ exact_rd D d C q rd' /\
      Permutation ur ur' /\ interleaved r ur' q /\ delta = route_cost D q - route_cost D r /\
      within C eps (demand d q) /\ (ur <> [] -> within L eps (route_cost D q)) /\
      (ur <> [] -> match best_delta with Some b => delta + eps <= b | None => True end).
Proof. exact insert_route_result. Qed.
Print Assumptions C20_insert_route.

(** A single customer is inserted whenever it fits anywhere; best accept finds the cheapest place. *)
Theorem C20_insert_customer_complete :
  forall eps D d C L first r rd n, exact_rd D d C r rd ->
    match do_insert_customer eps n rd D d C L first None with
    | Some (rds, delta) => exists m1 m2 rd', r = m1 ++ m2 /\ rds = [empty_rd; rd'] /\
        exact_rd D d C (m1 ++ [n] ++ m2) rd' /\
        delta = route_cost D (m1 ++ [n] ++ m2) - route_cost D r /\
        feasible D d C L eps eps (m1 ++ [n] ++ m2) /\
        (first = false -> forall a b, r = a ++ b -> within L eps (route_cost D (a ++ [n] ++ b)) ->
             route_cost D (m1 ++ [n] ++ m2) <= route_cost D (a ++ [n] ++ b))
    | None => forall a b, r = a ++ b -> ~ feasible D d C L eps eps (a ++ [n] ++ b)
    end.
Proof. exact do_insert_customer_spec. Qed.
Print Assumptions C20_insert_customer_complete.

Example C20_finds :
  do_insert_customers 0 [1; 4]%nat (ex_rd exM2 ex_d [2; 3; 5]%nat) exM2 ex_d (Some 20) (Some 150) false None
  = Some ([empty_rd; ex_rd exM2 ex_d [2; 3; 5; 4; 1]%nat], -14) /\
  do_insert_customers 0 [1; 4]%nat (ex_rd exM2 ex_d [2; 3; 5]%nat) exM2 ex_d (Some 20) None true None
  = Some ([empty_rd; ex_rd exM2 ex_d [2; 3; 5; 1; 4]%nat], 16) /\
  do_insert_customers 0 [1; 4]%nat (ex_rd exM2 ex_d [2; 3; 5]%nat) exM2 ex_d (Some 14) None true None = None.
Proof. vm_compute. auto. Qed.

(** ** C21 *)
Theorem C21_redistribute_partial :
  forall eps D d C L first best_delta level r1 rs rd1 rds rds' delta,
    (start_delta best_delta = 0 /\ level = 0%nat) \/ triangle D ->
    rd_route rd1 = wrap r1 -> Forall2 (exact_rd D d C) rs rds ->
    do_redistribute_move eps rd1 rds D d C L first best_delta level = Some (rds', delta) ->
    exists rds'' rs', rds' = empty_rd :: rds'' /\ Forall2 (exact_rd D d C) rs' rds'' /\
      length rs' = length rs /\ Permutation (concat rs') (r1 ++ concat rs) /\
      delta = routes_cost D rs' - routes_cost D rs /\
      (Forall (feasible D d C L eps eps) rs -> Forall (feasible D d C L eps eps) rs') /\
      (start_delta best_delta <> 0 -> delta < start_delta best_delta).
Proof. exact redistribute_result. Qed.
Print Assumptions C21_redistribute_partial.

Example C21_finds :
  do_redistribute_move 0 (ex_rd exM ex_d [1; 4]%nat) [ex_rd exM ex_d [2; 3; 5]%nat; ex_rd exM ex_d [6]%nat]
    exM ex_d (Some 11) (Some 15) true (Some 100) 3
  = Some ([empty_rd; ex_rd exM ex_d [1; 2; 3; 5]%nat; ex_rd exM ex_d [4; 6]%nat], 0).
Proof. vm_compute. reflexivity. Qed.

(** Without the triangle inequality a customer may be duplicated: with a threshold at any
    level, and with the default threshold when orderings are tried. *)
Definition ex_dup : matrix := ex_tri (fun i j => match i, j with
  | 1%nat, 3%nat => 100 | 0%nat, 2%nat => 3 | 0%nat, 4%nat => 5 | _, _ => 1 end).
Theorem C21_duplicates_refuted :
  exists D d first level best_delta r1 rs rds' rs' delta, symmetric D /\ nonneg_matrix D /\
    NoDup (r1 ++ concat rs) /\
    do_redistribute_move 0 (ex_rd D d r1) (map (ex_rd D d) rs) D d None None first best_delta level
      = Some (empty_rd :: rds', delta) /\
    map rd_route rds' = map wrap rs' /\ ~ Permutation (concat rs') (r1 ++ concat rs) /\
    (level, best_delta) = (2%nat, None).
Proof.
  exists ex_dup, ex_d, false, 2%nat, None, [1]%nat, [[2]; [3]; [4]]%nat. eexists.
  exists [[1; 2]; [1; 4]; [3]]%nat. eexists.
  split; [apply ex_tri_symmetric|]. split.
  { intros i j. unfold ex_dup, ex_tri. destruct (Nat.eqb i j); [lia|].
    destruct (Nat.min i j) as [|[|[|[|]]]]; destruct (Nat.max i j) as [|[|[|[|[|]]]]]; lia. }
  split; [cbn; repeat constructor; cbn; intuition discriminate|].
  split; [vm_compute; reflexivity|]. split; [vm_compute; reflexivity|]. split; [|reflexivity].
  intros H. apply Permutation_length in H. discriminate.
Qed.
Print Assumptions C21_duplicates_refuted.

Definition ex_dup2 : matrix := ex_tri (fun i j => match i, j with
  | 1%nat, 2%nat => 10 | 0%nat, 3%nat => 10 | _, _ => 1 end).
Theorem C21_duplicates_with_threshold_refuted :
  exists D d first level best_delta r1 rs rds' rs' delta, symmetric D /\
    NoDup (r1 ++ concat rs) /\
    do_redistribute_move 0 (ex_rd D d r1) (map (ex_rd D d) rs) D d None None first best_delta level
      = Some (empty_rd :: rds', delta) /\
    map rd_route rds' = map wrap rs' /\ ~ Permutation (concat rs') (r1 ++ concat rs) /\ level = 0%nat.
Proof.
  exists ex_dup2, ex_d, false, 0%nat, (Some 5), [1]%nat, [[2]; [3]]%nat. eexists.
  exists [[1; 2]; [1; 3]]%nat. eexists.
  split; [apply ex_tri_symmetric|]. split; [cbn; repeat constructor; cbn; intuition discriminate|].
  split; [vm_compute; reflexivity|]. split; [vm_compute; reflexivity|]. split; [|reflexivity].
  intros H. apply Permutation_length in H. discriminate.
Qed.
Print Assumptions C21_duplicates_with_threshold_refuted.

(** ** C22 *)
Theorem C22_chain_contract :
  forall eps rd1 rd2 rd3 D d C L first r1 r2 r3,
    exact_rd D d C r1 rd1 -> exact_rd D d C r2 rd2 -> exact_rd D d C r3 rd3 ->
    forall best_delta, 0 <= eps ->
    op_contract D (Forall2 (exact_rd D d C)) (nbr_chain D d C L r1 r2 r3) [r1; r2; r3]
      (start_delta best_delta) eps (negb first) (do_chain_move eps rd1 rd2 rd3 D d C L first best_delta).
Proof. exact do_chain_contract. Qed.
Print Assumptions C22_chain_contract.

Theorem C22_chain_result :
  forall eps rd1 rd2 rd3 D d C L first best_delta r1 r2 r3 rds delta,
    0 <= eps -> exact_rd D d C r1 rd1 -> exact_rd D d C r2 rd2 -> exact_rd D d C r3 rd3 ->
    do_chain_move eps rd1 rd2 rd3 D d C L first best_delta = Some (rds, delta) ->
    exists r1' r2' r3', Forall2 (exact_rd D d C) [r1'; r2'; r3'] rds /\
      Permutation (r1 ++ r2 ++ r3) (r1' ++ r2' ++ r3') /\
      delta = routes_cost D [r1'; r2'; r3'] - routes_cost D [r1; r2; r3] /\
      feasible D d C L 0 0 r2' /\ feasible D d C L 0 0 r3' /\
      ((forall n, 0 <= d n) -> within C eps (demand d r1) -> within C eps (demand d r1')) /\
      (triangle D -> within L eps (route_cost D r1) -> within L eps (route_cost D r1')).
Proof. exact chain_result. Qed.
Print Assumptions C22_chain_result.

Example C22_finds :
  do_chain_move 0 (ex_rd exM2 ex_d [1; 4]%nat) (ex_rd exM2 ex_d [2; 3; 5]%nat) (ex_rd exM2 ex_d [6; 7]%nat)
    exM2 ex_d (Some 20) (Some 150) false None
  = Some ([ex_rd exM2 ex_d [1]%nat; ex_rd exM2 ex_d [2; 3; 4]%nat; ex_rd exM2 ex_d [6; 7; 5]%nat], -56).
Proof. vm_compute. reflexivity. Qed.

(** The tests of the chain move have no tolerance: a move whose routes are within the
    tolerance used everywhere else may be missed. *)
Theorem C22_tolerance_refuted :
  exists eps D d C r1 r2 r3 r1' r2' r3', 0 <= eps /\ symmetric D /\
    chain_move r1 r2 r3 r1' r2' r3' /\
    Forall (feasible D d C None eps eps) [r1; r2; r3; r1'; r2'; r3'] /\
    routes_cost D [r1'; r2'; r3'] + eps < routes_cost D [r1; r2; r3] /\
    do_chain_move eps (ex_rd D d r1) (ex_rd D d r2) (ex_rd D d r3) D d C None false None = None.
Proof.
  exists 1, exM2, (fun _ => 1), (Some 1), [1; 4]%nat, [2; 3]%nat, [6]%nat, [1]%nat, [2; 4]%nat, [6; 3]%nat.
  split; [lia|]. split; [exact (proj2 exM_symmetric)|]. split.
  { exists [1]%nat, 4%nat, []%nat, [2]%nat, 3%nat, []%nat, [6]%nat, []%nat. repeat split. }
  split; [repeat constructor; vm_compute; intuition discriminate|].
  split; [vm_compute; reflexivity|]. vm_compute. reflexivity.
Qed.
Print Assumptions C22_tolerance_refuted.
