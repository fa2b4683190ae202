(** * Properties C01-C11: validation, normal form, objective, conversions, bookkeeping *)
From Verif Require Import Spec PyBase M_util Spec_util M_cvrp_ops M_routedata
     P_base P_validate P_cvrp P_util P_rd P_core.
From Coq Require Import Sorting.Sorted.

(** ** C01 *)

(** [sol] is any rotation [b ++ a] of the cyclic encoding [a ++ b] of the routes [rs]. *)
Theorem C01_validator_exact :
  forall N D d C L eps rs a b,
    (0 < N)%nat -> d 0%nat = 0 -> rs <> [] -> Forall customers_only rs ->
    cyclic rs = a ++ b -> Forall (fun n => (n < N)%nat) (b ++ a) ->
    exists bcov bcap blen,
      validate_solution_feasibility N (b ++ a) D d C L eps = Some (bcov, bcap, blen) /\
      (bcov = true <-> covers N rs) /\
      (bcap = true <-> cap_ok d C eps rs) /\
      (blen = true <-> len_ok D L eps rs).
Proof. exact validate_correct. Qed.
Print Assumptions C01_validator_exact.

(** Every tour through the depot is such a rotation, so the previous theorem covers them all. *)
Theorem C01_every_tour_is_a_rotation :
  forall sol, In 0%nat sol ->
    exists rs a b, rs <> [] /\ Forall customers_only rs /\ cyclic rs = a ++ b /\ sol = b ++ a.
Proof. exact rotation_exists. Qed.
Print Assumptions C01_every_tour_is_a_rotation.

Theorem C01_no_depot_not_covering :
  forall D d C L eps N sol, (0 < N)%nat -> sol <> [] -> ~ In 0%nat sol ->
    exists bcap blen,
      validate_solution_feasibility N sol D d C L eps = Some (false, bcap, blen).
Proof. exact validate_no_depot. Qed.
Print Assumptions C01_no_depot_not_covering.

Definition exD : matrix := fun i j => Z.abs (Z.of_nat i * Z.of_nat i - Z.of_nat j * Z.of_nat j).
Definition exd : demands := fun n => if Nat.eqb n 0 then 0 else 2.

Example C01_nonvacuous :
  let rs := [[1; 3]; [2]]%nat in
  cyclic rs = [0; 1]%nat ++ [3; 0; 2]%nat /\
  validate_solution_feasibility 4 ([3; 0; 2] ++ [0; 1])%nat exD exd (Some 3) (Some 18) 0
    = Some (true, false, true) /\
  validate_solution_feasibility 4 ([3; 0; 2] ++ [0; 1])%nat exD exd (Some 4) (Some 17) 0
    = Some (true, true, false).
Proof. repeat split. Qed.

(** ** C02 *)

(** Shape: the normal form encodes sorted, oriented, non-empty routes, and they are the
    non-empty routes of the input up to order and direction. *)
Theorem C02_normal_form :
  forall rs, Forall customers_only rs ->
    exists ns, normalize_solution (Giant (encode rs)) = Some (encode ns) /\
      same_routes (filter nonempty rs) ns /\
      Forall customers_only ns /\ Forall (fun r => r <> []) ns /\
      Forall oriented ns /\ StronglySorted (fun a b => lex_leb a b = true) ns /\
      Permutation (concat ns) (concat rs).
Proof.
  exact (fun rs H => ex_intro _ (nf rs) (conj (normalize_giant rs H) (conj (nf_same rs)
    (conj (nf_customers rs H) (conj (nf_nonempty rs) (conj (nf_oriented rs) (conj (nf_sorted rs) (nf_concat rs)))))))).
Qed.
Print Assumptions C02_normal_form.

Theorem C02_idempotent :
  forall rs ns, Forall customers_only rs ->
    normalize_solution (Giant (encode rs)) = Some ns -> normalize_solution (Giant ns) = Some ns.
Proof. exact normalize_idem. Qed.
Print Assumptions C02_idempotent.

Theorem C02_canonical :
  forall rs1 rs2,
    Forall customers_only rs1 -> Forall customers_only rs2 ->
    Forall (fun r => r <> []) rs1 -> Forall (fun r => r <> []) rs2 -> Forall (@NoDup nat) rs1 ->
    (normalize_solution (Giant (encode rs1)) = normalize_solution (Giant (encode rs2)) <->
     same_routes rs1 rs2).
Proof. exact normalize_canonical. Qed.
Print Assumptions C02_canonical.

Theorem C02_forms_agree :
  forall rs ws, rs <> [] -> Forall customers_only rs -> Forall (fun r => r <> []) rs ->
    Forall2 (fun r w => exists a b, w = repeat 0%nat a ++ r ++ repeat 0%nat b) rs ws ->
    normalize_solution (Routes ws) = normalize_solution (Giant (encode rs)).
Proof. exact normalize_forms. Qed.
Print Assumptions C02_forms_agree.

Example C02_nonvacuous :
  normalize_solution (Giant (encode [[5; 2]; []; [3; 1; 4]]%nat)) = Some [0; 2; 5; 0; 3; 1; 4; 0]%nat /\
  normalize_solution (Routes [[0; 5; 2; 0]; [3; 1; 4]]%nat) = Some [0; 2; 5; 0; 3; 1; 4; 0]%nat.
Proof. split; reflexivity. Qed.

(** In list form an empty route makes the function fail although the giant tour of the same
    solution is accepted. *)
Theorem C02_empty_route_in_list_form_refuted :
  exists rs, Forall customers_only rs /\ normalize_solution (Routes rs) = None /\
    normalize_solution (Giant (encode rs)) <> None.
Proof. exists [[1]; []]%nat. split; [repeat constructor; easy|]. split; [reflexivity|discriminate]. Qed.
Print Assumptions C02_empty_route_in_list_form_refuted.

(** ** C03 *)
Theorem C03_normalize_preserves :
  forall N D d C L eps rs ns,
    (0 < N)%nat -> d 0%nat = 0 -> symmetric D -> D 0%nat 0%nat = 0 -> Forall customers_only rs ->
    Forall (fun n => (n < N)%nat) (encode rs) ->
    normalize_solution (Giant (encode rs)) = Some ns ->
    recalculate_objective (Giant ns) D = recalculate_objective (Giant (encode rs)) D /\
    validate_solution_feasibility N ns D d C L eps =
    validate_solution_feasibility N (encode rs) D d C L eps.
Proof. exact normalize_preserves. Qed.
Print Assumptions C03_normalize_preserves.

Example C03_nonvacuous :
  symmetric exD /\ exD 0%nat 0%nat = 0 /\
  recalculate_objective (Giant (encode [[3; 1]; []; [2]]%nat)) exD = Some 26 /\
  recalculate_objective (Giant [0; 1; 3; 0; 2; 0]%nat) exD = Some 26.
Proof. repeat split. intros i j. unfold exD. lia. Qed.

(** ** C04 *)
Theorem C04_objectives_agree :
  forall D d rs ws, D 0%nat 0%nat = 0 -> rs <> [] ->
    Forall customers_only rs -> Forall (fun r => r <> []) rs -> Forall2 depot_wrapped rs ws ->
    objf (encode rs) D = routes_cost D rs /\
    recalculate_objective (Giant (encode rs)) D = Some (routes_cost D rs) /\
    recalculate_objective (Routes ws) D = Some (routes_cost D rs) /\
    sumZ (map rd_cost (from_routes (map wrap rs) D d)) = routes_cost D rs.
Proof. exact objectives_agree. Qed.
Print Assumptions C04_objectives_agree.

Example C04_nonvacuous :
  Forall2 depot_wrapped [[3; 1]; [2]]%nat [[0; 3; 1]; [2; 0]]%nat /\
  recalculate_objective (Routes [[0; 3; 1]; [2; 0]]%nat) exD = Some 26.
Proof.
  split; [|reflexivity]. repeat constructor.
  - exists [0%nat], []. auto.
  - exists [], [0%nat]. auto.
Qed.

(** ** C05: numbers count multiples of 1/(2u); the service time is [st/(2u)] and
    [4*u] divides [st] iff the service time is an even integer. *)
Theorem C05_exact_iff_even_integer_service_time :
  forall u int_dtype D st Dc, 0 < u -> Z.even st = true -> D 0%nat 0%nat = 0 ->
    D2D_c u int_dtype D (Some st) = Some Dc ->
    ((forall r, customers_only r -> NoDup r ->
        route_cost Dc r = route_cost D r + Z.of_nat (length r) * st) <-> (4 * u | st)).
Proof. exact D2D_c_exact_iff. Qed.
Print Assumptions C05_exact_iff_even_integer_service_time.

(** Service time 5 on an integer matrix, and service time 2.5 on a float matrix. *)
Theorem C05_odd_service_time_refuted :
  exists u D st Dc r, 0 < u /\ customers_only r /\ NoDup r /\ D2D_c u true D (Some st) = Some Dc /\
    st = 5 * (2 * u) /\ route_cost Dc r <> route_cost D r + Z.of_nat (length r) * st.
Proof.
  exists 1, (fun _ _ => 0), 10. eexists. exists [1%nat]. split; [reflexivity|].
  split; [repeat constructor; easy|]. split; [repeat constructor; easy|].
  split; [reflexivity|]. split; [reflexivity|]. vm_compute. discriminate.
Qed.
Print Assumptions C05_odd_service_time_refuted.

Example C05_nonvacuous :
  exists Dc, D2D_c 1 false (fun i j => if Nat.eqb i j then 0 else 3) (Some 12) = Some Dc /\
    route_cost Dc [2; 1]%nat = 9 + 2 * 12.
Proof. eexists. split; [reflexivity|]. vm_compute. reflexivity. Qed.

(** ** C06 *)
Theorem C06_routes_to_solution_and_back :
  forall rs ws, Forall customers_only rs -> Forall2 entry_of rs ws -> ws <> [] ->
    exists sol, routes2sol ws = Some sol /\
      sol2routes sol = map wrap (filter nonempty rs) /\ customers sol = concat rs.
Proof. exact conversions1. Qed.
Print Assumptions C06_routes_to_solution_and_back.

Theorem C06_solution_to_routes_and_back :
  forall rs, Forall customers_only rs -> filter nonempty rs <> [] ->
    routes2sol (map Some (sol2routes (encode rs))) = Some (encode (filter nonempty rs)).
Proof. exact conversions2. Qed.
Print Assumptions C06_solution_to_routes_and_back.

(** A solution that does not end at the depot loses a single customer. *)
Theorem C06_open_short_solution_refuted :
  exists sol, customers sol <> [] /\ sol2routes sol = [].
Proof. exists [0; 1]%nat. split; [discriminate|reflexivity]. Qed.
Print Assumptions C06_open_short_solution_refuted.

Example C06_nonvacuous :
  Forall2 entry_of [[1; 2]; []; [3]]%nat [Some [1; 2]; None; Some [0; 3; 0]]%nat /\
  routes2sol [Some [1; 2]; None; Some [0; 3; 0]]%nat = Some [0; 1; 2; 0; 3; 0]%nat /\
  sol2routes [0; 1; 2; 0; 3; 0]%nat = [[0; 1; 2; 0]; [0; 3; 0]]%nat.
Proof.
  split; [|split; reflexivity]. constructor.
  - exists [], []. auto.
  - constructor; [reflexivity|]. constructor; [|constructor]. exists [0%nat], [0%nat]. auto.
Qed.

(** ** C07 *)
Theorem C07_removes_exactly_empty_routes :
  forall D rs, D 0%nat 0%nat = 0 -> Forall customers_only rs -> Forall no_repeats rs ->
    without_empty_routes (encode rs) = encode (filter nonempty rs) /\
    customers (without_empty_routes (encode rs)) = concat rs /\
    objf (without_empty_routes (encode rs)) D = objf (encode rs) D.
Proof. exact weR_all. Qed.
Print Assumptions C07_removes_exactly_empty_routes.

Theorem C07_no_adjacent_duplicates : forall sol, no_repeats (without_empty_routes sol).
Proof. exact weR_no_repeats. Qed.
Print Assumptions C07_no_adjacent_duplicates.

Theorem C07_idempotent :
  forall sol, without_empty_routes (without_empty_routes sol) = without_empty_routes sol.
Proof. exact (fun sol => weR_id _ (weR_no_repeats sol)). Qed.
Print Assumptions C07_idempotent.

Example C07_nonvacuous :
  without_empty_routes (encode [[]; [1; 2]; []; []; [3]]%nat) = [0; 1; 2; 0; 3; 0]%nat.
Proof. reflexivity. Qed.

(** ** C08 *)

(** With the documented flag symmetric=True the edge set does depend on the direction. *)
Theorem C08_symmetric_flag_refuted :
  exists rs rs' e, same_routes rs rs' /\
    In e (sol2edgeset (encode rs) true) /\ ~ In e (sol2edgeset (encode rs') true).
Proof.
  exists [[1; 2]]%nat, [[2; 1]]%nat, (0, 1)%nat. split.
  - exists [[2; 1]]%nat. split; [|reflexivity]. constructor; [now right|constructor].
  - split; [now left|]. cbn. intros [H|[H|[H|[]]]]; discriminate.
Qed.
Print Assumptions C08_symmetric_flag_refuted.

(** With symmetric=False it does not. *)
Theorem C08_direction_independent_with_flag_off_partial :
  forall rs rs' e, same_routes rs rs' ->
    In e (sol2edgeset (encode rs) false) -> In e (sol2edgeset (encode rs') false).
Proof. exact edgeset_false_same. Qed.
Print Assumptions C08_direction_independent_with_flag_off_partial.

Theorem C08_edges_are_consecutive_pairs :
  forall sol b e, In e (sol2edgeset sol b) <->
    exists l1 x y l2, sol = l1 ++ x :: y :: l2 /\ e = if b || Nat.ltb x y then (x, y) else (y, x).
Proof. exact edgeset_spec. Qed.
Print Assumptions C08_edges_are_consecutive_pairs.

(** ** C09 *)
Theorem C09_is_better_sol_meaning :
  forall minimize_K f1 k1 f2 k2,
    is_better_sol (Some f2) (Some k2) (Some f1) (Some k1) minimize_K = true <->
    beats minimize_K f1 k1 f2 k2.
Proof. exact is_better_spec. Qed.
Print Assumptions C09_is_better_sol_meaning.

Theorem C09_strict_order :
  forall mk,
    (forall f k, ~ beats mk f k f k) /\
    (forall f1 k1 f2 k2 f3 k3, beats mk f1 k1 f2 k2 -> beats mk f2 k2 f3 k3 -> beats mk f1 k1 f3 k3) /\
    (forall f1 k1 f2 k2, beats mk f1 k1 f2 k2 \/ beats mk f2 k2 f1 k1 \/ (f1 = f2 /\ (mk = true -> k1 = k2))).
Proof. exact (fun mk => conj (beats_irrefl mk) (conj (beats_trans mk) (beats_total mk))). Qed.
Print Assumptions C09_strict_order.

Theorem C09_best_of_is_first_optimum :
  forall (S : Type) mk (cands : list (S * Z * nat)),
    match best_of mk cands with
    | None => cands = []
    | Some b => exists l1 l2, cands = l1 ++ b :: l2 /\
        (forall c, In c l1 -> cbeats mk b c) /\ (forall c, In c l2 -> ~ cbeats mk c b)
    end.
Proof. exact @best_of_spec. Qed.
Print Assumptions C09_best_of_is_first_optimum.

Example C09_nonvacuous :
  best_of true [(1%nat, 5, 3%nat); (2%nat, 9, 2%nat); (3%nat, 4, 3%nat); (4%nat, 9, 2%nat)] = Some (2%nat, 9, 2%nat) /\
  best_of false [(1%nat, 5, 3%nat); (2%nat, 9, 2%nat); (3%nat, 4, 3%nat); (4%nat, 9, 2%nat)] = Some (3%nat, 4, 3%nat).
Proof. split; reflexivity. Qed.

(** ** C10 *)
Theorem C10_membership_and_length :
  forall c ops, NoDup (ods_iter (ods_run c ops)) /\
    (forall k, In k (ods_iter (ods_run c ops)) <-> set_run c ops k) /\
    ods_len (ods_run c ops) = length (ods_iter (ods_run c ops)).
Proof. exact (fun c ops => conj (proj1 (ods_refines c ops)) (conj (proj2 (ods_refines c ops)) eq_refl)). Qed.
Print Assumptions C10_membership_and_length.

Theorem C10_indexing_agrees_with_iteration_partial :
  forall c ops, ods_careful (ods_init c) ops -> forall i,
    snd (ods_getitem (ods_run c ops) i) = nth_error (ods_iter (ods_run c ops)) i.
Proof. exact ods_careful_get. Qed.
Print Assumptions C10_indexing_agrees_with_iteration_partial.

(** Re-adding a present element after indexing makes indexing see it twice. *)
Theorem C10_readd_refuted :
  exists c ops i, snd (ods_getitem (ods_run c ops) i) <> nth_error (ods_iter (ods_run c ops)) i.
Proof. exists [7]%nat, [OGet 0; OAdd 7], 1%nat. vm_compute. discriminate. Qed.
Print Assumptions C10_readd_refuted.

(** Indexing an empty set hides every element added later. *)
Theorem C10_index_empty_then_add_refuted :
  exists ops i, snd (ods_getitem (ods_run [] ops) i) <> nth_error (ods_iter (ods_run [] ops)) i.
Proof. exists [OGet 0; OAdd 7], 0%nat. vm_compute. discriminate. Qed.
Print Assumptions C10_index_empty_then_add_refuted.

Example C10_nonvacuous :
  let ops := [OGet 1; OAdd 4; ORemove 2; OGet 0; OAdd 9; ODiff [1; 77]; OGet 2]%nat in
  ods_careful (ods_init [1; 2; 3]%nat) ops /\ ods_iter (ods_run [1; 2; 3]%nat ops) = [3; 4; 9]%nat.
Proof. vm_compute. repeat split; try discriminate; intuition discriminate. Qed.

(** ** C11 *)
Theorem C11_from_routes :
  forall rs D d, d 0%nat = 0 ->
    from_routes (map wrap rs) D d = map (fun r => mkrd (wrap r) (route_cost D r) (Some (demand d r))) rs.
Proof. exact from_routes_spec. Qed.
Print Assumptions C11_from_routes.

Theorem C11_from_solution :
  forall rs D d, d 0%nat = 0 -> Forall customers_only rs ->
    from_solution (encode rs) D d =
    map (fun r => mkrd (wrap r) (route_cost D r) (Some (demand d r))) (filter nonempty rs).
Proof. exact from_solution_spec. Qed.
Print Assumptions C11_from_solution.

Theorem C11_to_solution_from_solution :
  forall rs D d, Forall customers_only rs ->
    to_solution (from_solution (encode rs) D d) = encode (filter nonempty rs).
Proof. exact to_from_solution. Qed.
Print Assumptions C11_to_solution_from_solution.

(** Cumulative lists at every position of a depot-to-depot route. *)
Theorem C11_cumulative_lists :
  forall D d r i, d 0%nat = 0 -> (i < length (wrap r))%nat ->
    nth i (fwd_l D (wrap r)) 0 = path_cost D (firstn (i + 1) (wrap r)) /\
    nth i (fwd_d d (wrap r)) 0 = demand d (firstn (i + 1) (wrap r)) /\
    nth i (rwd_l D (wrap r)) 0 = path_cost D (rev (skipn i (wrap r))) /\
    nth i (rwd_d d (wrap r)) 0 = demand d (skipn i (wrap r)) /\
    length (fwd_l D (wrap r)) = length (wrap r) /\ length (rwd_l D (wrap r)) = length (wrap r).
Proof.
  exact (fun D d r i Hd Hi =>
    conj (fwd_l_spec D (wrap r) i eq_refl Hi)
   (conj (fwd_d_spec d (wrap r) i eq_refl Hd Hi)
   (conj (rwd_l_spec D (wrap r) i (last_last (0%nat :: r) 0%nat 1%nat) Hi)
   (conj (rwd_d_spec d (wrap r) i (last_last (0%nat :: r) 0%nat 1%nat) Hd Hi)
   (conj (fwd_l_length D (wrap r)) (rwd_l_length D (wrap r))))))).
Qed.
Print Assumptions C11_cumulative_lists.

Theorem C11_node_set : forall r, customers_only r -> route_to_nodeset (wrap r) = r.
Proof. exact nodeset_wrap. Qed.
Print Assumptions C11_node_set.

(** normalize never changes which customers are served in which cyclic order: the route is kept or
    reversed, and then starts with the smaller of its two end customers. *)
Theorem C11_normalize : forall r, r <> [] ->
  exists r', (r' = r \/ r' = rev r) /\ rd_normalize (wrap r) = wrap r' /\ (hd 0 r' <= last r' 0)%nat.
Proof. exact rd_normalize_spec. Qed.
Print Assumptions C11_normalize.

(** is_empty holds of exactly the two ways of writing a route without customers. *)
Theorem C11_is_empty : forall rd,
  rd_is_empty rd = true <-> rd_route rd = [] \/ rd_route rd = [0; 0]%nat.
Proof. exact rd_is_empty_spec. Qed.
Print Assumptions C11_is_empty.

Example C11_normalize_reverses :
  rd_normalize (wrap [5; 3; 2]%nat) = wrap [2; 3; 5]%nat /\ rd_is_empty empty_rd = true.
Proof. split; reflexivity. Qed.

Example C11_nonvacuous :
  fwd_l exD (wrap [1; 3])%nat = [0; 1; 9; 18] /\ rwd_l exD (wrap [1; 3])%nat = [18; 17; 9; 0] /\
  from_solution [0; 1; 3; 0; 0; 2; 0]%nat exD exd =
    [mkrd [0; 1; 3; 0]%nat 18 (Some 4); mkrd [0; 2; 0]%nat 8 (Some 2)].
Proof. repeat split. Qed.
