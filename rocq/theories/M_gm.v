(** * Model of verypy/classic_heuristics/gillet_miller_sweep.py

    With the parts of sweep.py that are used only with an improvement callback.  As in M_sweep the sweep is given
    as the list of its nodes.  [tsp] is solve_tsp; logging is left out.  The distance matrix, which
    _shortest_path_through_nodes changes for the time of the call, is not part of the state: see [path_matrix]
    and [matrix_after]. *)
From Verif Require Import Spec PyBase M_util M_psavings M_ssavings M_savfam M_nn M_sweep.

(** What an intra_route_callback returns: the route, included_nodes, ignored_nodes, route_complete *)
Definition callback_result := (swroute * list nat * list nat * bool)%type.

(** ** sweep.py, do_one_sweep with an intra_route_callback, lines 134-348 *)
Record gmstate := mkgm { gm_sw : swstate; gm_blocked : list nat }.

Section Sweep.
Variables ceps seps : Z.
Variable D : matrix.
Variable d : demands.
Variables C L : limit.
Variable f : routing.
Variable order : list nat.
Variable ccw : bool.
(** intra_route_callback(current_route, callback_data, sweep[1], sweep_phis, sweep_pos, step_inc, routed) *)
Variable callback : swroute -> nat -> (nat -> bool) -> callback_result.

(** Lines 307-342 *)
Definition gm_proceed (pos : nat) (node : option nat) (routes : list swroute) (routed : nat -> bool) (count : nat)
           (r : swroute) (bound : Z) (blocked : list nat) : gmstate :=
  let '(r', routed', bound') :=
    match node with
    | Some n => if negb (routed n)
                then (add_node d C r n, upd routed n true, if is_set L then bound + bound_delta D r n else bound)
                else (r, routed, bound)
    | None => (r, routed, bound)
    end in
  let '(pos', node') := next_unrouted order ccw (length order) pos pos (fun x => routed' x || mem x blocked) in
  mkgm (mksw pos' node' routes routed' count r' bound' (match node' with None => true | Some _ => false end))
       (match node' with None => [] | Some _ => blocked end).

(** One round of the main loop, lines 189-342, with generate_alternative_first_routes=False.  [inl]: break. *)
Definition gm_iter (fuel : nat) (gst : gmstate) : option (list swroute + gmstate) :=
  let st := gm_sw gst in
  let cur := sw_current st in
  (* 205-207 *)
  let complete1 := sw_complete st ||
    match sw_node st with Some n => exceeds C ceps (sr_demand cur + d n) | None => false end in
  (* 208-213 *)
  let '(bound1, complete2) :=
    match sw_node st with
    | Some n => if negb complete1 && exceeds L 0 (sw_bound st)
                then let c := snd (f (0%nat :: sr_set cur ++ [n])) in (c, exceeds L seps c)
                else (sw_bound st, complete1)
    | None => (sw_bound st, complete1)
    end in
  if complete2 then
    (* 218-221 *)
    let cur1 := routed_by_f f cur in
    (* 229-240 *)
    let ensured :=
      if is_set L then
        match ensure_L seps d C L f order ccw fuel (sw_pos st) (sw_pos st) cur1 (sw_routed st) with
        | None => None
        | Some (p, r, routed) =>
            if Nat.eqb p (sw_pos st) then Some (sw_pos st, sw_node st, r, routed)
            else Some (p, match sw_node st with Some _ => Some (node_at order p) | None => None end, r, routed)
        end
      else Some (sw_pos st, sw_node st, cur1, sw_routed st) in
    match ensured with
    | None => None
    | Some (pos, node, cur2, routed) =>
        (* 243-269 *)
        let '(cur3, included, ignored, complete3) :=
          match node with Some _ => callback cur2 pos routed | None => (cur2, [], [], true) end in
        let routed3 := fold_left (fun r x => upd r x false) ignored (fold_left (fun r x => upd r x true) included routed) in
        let blocked3 := ignored ++ gm_blocked gst in
        let node3 := match node with Some n => if mem n ignored then None else Some n | None => None end in
        if complete3 then
          (* 275-294 *)
          let routes := if (0 <? length (sr_set cur3))%nat then sw_routes st ++ [cur3] else sw_routes st in
          let count := (sw_count st + length (sr_set cur3))%nat in
          if (length order <=? count)%nat then Some (inl routes)
          else Some (inr (gm_proceed pos node3 routes routed3 count sr_new 0 []))
        else Some (inr (gm_proceed pos node3 (sw_routes st) routed3 (sw_count st) cur3 (sr_cost cur3) blocked3))
    end
  else Some (inr (gm_proceed (sw_pos st) (sw_node st) (sw_routes st) (sw_routed st) (sw_count st) cur bound1 (gm_blocked gst))).

Fixpoint gm_loop (fuel_L fuel : nat) (st : gmstate) : option (list swroute) :=
  match fuel with
  | O => None
  | S fuel' =>
      match gm_iter fuel_L st with
      | None => None
      | Some (inl routes) => Some routes
      | Some (inr st') => gm_loop fuel_L fuel' st'
      end
  end.

(** Outer [None]: out of fuel; inner [None]: IndexError *)
Definition gm_one_sweep (start fuel : nat) : option (option (list swroute)) :=
  match nth_error order start with
  | None => Some None
  | Some n =>
      option_map Some (gm_loop fuel fuel
        (mkgm (mksw start (Some n) [] (fun x => Nat.eqb x 0) 0 sr_new 0 false) []))
  end.
End Sweep.

(** ** _shortest_path_through_nodes, lines 42-69, called with from_node = 0.  Only the cost is used. *)
(** D while solve_tsp runs, lines 49-51 *)
Definition path_matrix (D : matrix) (to_node : nat) : matrix :=
  fun i j => if (Nat.eqb i 0 && Nat.eqb j to_node) || (Nat.eqb i to_node && Nat.eqb j 0) then 0 else D i j.
(** D afterwards, lines 53-55 *)
Definition matrix_after (D : matrix) (to_node : nat) : matrix :=
  fun i j => if (Nat.eqb i 0 && Nat.eqb j to_node) || (Nat.eqb i to_node && Nat.eqb j 0) then D 0%nat to_node else D i j.
Definition shortest_path (tsp : matrix -> routing) (D : matrix) (to_node : nat) (through : list nat) : Z :=
  match through with
  | [] => D 0%nat to_node
  | _ :: _ => snd (tsp (path_matrix D to_node) (0%nat :: through ++ [to_node]))
  end.

(** produce_nn_list, util.py lines 32-42 *)
Definition nn_row (N : nat) (D : matrix) (i : nat) : list nat :=
  map fst (nn_sort (map (fun j => (j, D i j)) (range 0 N))).

(** ** _improvement_callback, lines 85-314 *)
Section Callback.
Variables ceps seps : Z.
Variable N : nat.
Variable D : matrix.
Variable d : demands.
Variables C L : limit.
Variable tsp : matrix -> routing.
Variable order : list nat.
Variable ccw : bool.
(** R(K) + An(K)*AVR, lines 116-121, for the node K *)
Variable score : nat -> Z.
Variable routed : nat -> bool.

(** np.argmin, line 122: the first of the nodes with the smallest score *)
Fixpoint gm_remove (l : list nat) : option nat :=
  match l with
  | [] => None
  | x :: t => match gm_remove t with
              | None => Some x
              | Some y => if score y <? score x then Some y else Some x
              end
  end.

(** (L and cost-S_EPS<L) and (C and demand-C_EPS<=C), lines 161 and 258 *)
Definition gm_fits (cost dem : Z) : bool :=
  match truthy L, truthy C with
  | Some l, Some c => (cost - seps <? l) && (dem - ceps <=? c)
  | _, _ => false
  end.

(** Lines 176-200: D3_nodes, D4_nodes, D6_nodes, JJX_in_chain, JII_in_chain and lookahead_pos after [n] steps.
    [oset_add]: OrderedSet.add *)
Definition oset_add (l : list nat) (x : nat) : list nat := if mem x l then l else l ++ [x].
Fixpoint gm_lookahead (n pos kii jjx : nat) (jii : option nat) (d3 d4 d6 : list nat) (injjx injii : bool)
  : list nat * list nat * list nat * bool * bool * nat :=
  match n with
  | O => (d3, d4, d6, injjx, injii, pos)
  | S n' =>
      let p := sw_step ccw (N - 2) pos in
      let x := node_at order p in
      if routed x then gm_lookahead n' p kii jjx jii d3 d4 d6 injjx injii
      else if Nat.eqb x jjx then gm_lookahead n' p kii jjx jii (oset_add d3 x) (oset_add d4 kii) (oset_add d6 kii) true injii
      else if match jii with Some y => Nat.eqb x y | None => false end
      then gm_lookahead n' p kii jjx jii (oset_add d3 x) (oset_add d4 x) d6 injjx true
      else gm_lookahead n' p kii jjx jii (oset_add d3 x) (oset_add d4 x) (oset_add d6 x) injjx injii
  end.

Definition gm_callback (r : swroute) (pos : nat) : callback_result :=
  let unchanged := (r, [], [], true) in
  let node_J := node_at order pos in
  (* 100-102 *)
  if routed node_J then unchanged
  else
    match gm_remove (sr_set r) with
    | None => unchanged (* ValueError of np.argmin: not reached, routes have a customer *)
    | Some kii =>
        (* 131-132 *)
        let prev_pos := sw_step (negb ccw) (N - 2) pos in
        let prev_J := node_at order prev_pos in
        (* 136-150 *)
        match find (fun x => negb (routed x)) (nn_row N D prev_J) with
        | None => (r, [], [], false)
        | Some jjx =>
            let jii := find (fun x => negb (routed x) && negb (Nat.eqb x jjx)) (nn_row N D jjx) in
            (* 153-157 *)
            let d2_nodes := del kii (sr_set r) ++ [jjx] in
            let '(d2_route, d2) := tsp D (0%nat :: d2_nodes) in
            let d2_demand := if is_set C then sr_demand r - d kii + d jjx else 0 in
            (* 161-174 *)
            if negb (gm_fits d2 d2_demand) then unchanged
            else
              let '(d3_nodes, d4_nodes, d6_nodes, jjx_in, jii_in, lpos) :=
                gm_lookahead 5 prev_pos kii jjx jii [] [] [] false false in
              (* 203-211 *)
              if negb jjx_in then unchanged
              else
                (* 214-218 *)
                let end_node := let e := node_at order (sw_step ccw (N - 2) lpos) in if routed e then 0%nat else e in
                (* 221-223 *)
                let d3 := shortest_path tsp D end_node d3_nodes in
                let d4 := shortest_path tsp D end_node d4_nodes in
                if negb (sr_cost r + d3 <? d2 + d4)
                then (* 225-242 *)
                  (mkswr d2_route d2 d2_demand d2_nodes, [jjx], kii :: (if Nat.eqb jjx node_J then [] else [node_J]), false)
                else
                  (* 248-255 *)
                  match jii, jii_in with
                  | Some ji, true =>
                      (* 258-275 *)
                      let d5_nodes := d2_nodes ++ [ji] in
                      let '(d5_route, d5) := tsp D (0%nat :: d5_nodes) in
                      let d5_demand := if is_set C then d2_demand + d ji else 0 in
                      if negb (gm_fits d5 d5_demand) then unchanged
                      else
                        (* 280-291 *)
                        let d6 := shortest_path tsp D end_node d6_nodes in
                        if sr_cost r + d3 <? d5 + d6 then unchanged
                        else (* 301-310 *)
                          (mkswr d5_route d5 d5_demand d5_nodes, [jjx; ji],
                           kii :: (if Nat.eqb jjx node_J || Nat.eqb ji node_J then [] else [node_J]), false)
                  | _, _ => unchanged
                  end
        end
    end.
End Callback.

(** ** gillet_miller_init, lines 316-341, with sweep_init, sweep.py lines 376-526 *)
Section Init.
Variables ceps seps : Z.
Variable N : nat.
Variable D : matrix.
Variable d : demands.
Variables C L : limit.
Variable minimize_K : bool.
Variable tsp : matrix -> routing.
Variable order : list nat.
(** The score of a node in the sweep in some direction from some start *)
Variable score : bool -> nat -> nat -> Z.

Definition gm_run (ccw : bool) (start fuel : nat) : option (option (list swroute)) :=
  gm_one_sweep ceps seps D d C L (tsp D) order ccw
    (fun r pos routed => gm_callback ceps seps N D d C L tsp order ccw (score ccw start) routed r pos) start fuel.

Fixpoint gm_candidates (runs : list (bool * nat)) (fuel : nat) : option (option (list (list nat))) :=
  match runs with
  | [] => Some (Some [])
  | (ccw, start) :: t =>
      match gm_run ccw start fuel with
      | None => None
      | Some None => Some None
      | Some (Some routes) =>
          match gm_candidates t fuel with
          | None => None
          | Some None => Some None
          | Some (Some sols) => Some (Some (sweep_sol routes :: sols))
          end
      end
  end.
(** The ValueError without points (lines 335-336) is left out. *)
Definition gillet_miller_init (rho : list Z) (dir : sw_direction) (s : sw_seed) (fuel : nat) : option sw_result :=
  match sw_starts N order rho s with
  | None => Some SwRaises
  | Some starts =>
      match gm_candidates (sw_runs dir starts) fuel with
      | None => None
      | Some None => Some SwRaises
      | Some (Some sols) => Some (SwReturns (sw_best D minimize_K sols))
      end
  end.
(** KeyboardInterrupt is raised during the run after the first [k] runs: its argument *)
Definition gm_interrupted (runs : list (bool * nat)) (k fuel : nat) : option (option (option (list nat))) :=
  option_map (option_map (sw_best D minimize_K)) (gm_candidates (firstn k runs) fuel).
End Init.
