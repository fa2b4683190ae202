(** * Model of verypy/local_search/inter_route_operators.py

    An operator returning (rd1, .., rdk, delta) is modelled by [Some ([rd1; ..; rdk], delta)],
    the all-None tuple by [None].  The operators are always called with two different
    RouteData objects (do_local_search uses itertools.permutations of distinct indices), so
    the [route1_data==route2_data] guards (object identity; lines 78-79, 232-233) are not modelled. *)
From Verif Require Import Spec PyBase M_util M_routedata M_intra.

(** A demand used in arithmetic.  Python raises TypeError on None; the theorems require the
    demand to be present whenever the capacity is set, and only then it is used. *)
Definition odem (rd : routedata) : Z := match rd_demand rd with Some x => x | None => 0 end.

(** [None if not C else x] *)
Definition if_set (C : limit) (x : Z) : option Z := match truthy C with Some _ => Some x | None => None end.

Definition nthZ (l : list Z) (i : nat) : Z := nth i l 0.

(** [if delta+S_EPS<best_delta:] followed by the feasibility test and the update, lines
    116-141 and 151-176; and the version with the feasibility test first. *)
Definition try_feasible {M} (eps : Z) (first : bool) (delta : Z) (violated : bool) (m : M)
           (s : option M * Z) : (option M * Z) * bool :=
  if delta + eps <? snd s
  then if violated then (s, false) else ((Some m, delta), first)
  else (s, false).

(** do_2optstar_move, lines 66-204.  The move records which of the two reconnections was
    chosen, the indices, [r1_delta] and [r1_new_demand]. *)
Definition do_2optstar_move (eps : Z) (rd1 rd2 : routedata) (D : matrix) (d : demands) (C L : limit)
           (first : bool) (best_delta : option Z) : option (list routedata * Z) :=
  let route1 := rd_route rd1 in
  let route2 := rd_route rd2 in
  let fwd_d1 := fwd_d d route1 in let rwd_d1 := rwd_d d route1 in
  let fwd_d2 := fwd_d d route2 in let rwd_d2 := rwd_d d route2 in
  let fwd_l1 := fwd_l D route1 in let rwd_l1 := rwd_l D route1 in
  let fwd_l2 := fwd_l D route2 in let rwd_l2 := rwd_l D route2 in
  let '((best_move, bd), _) :=
    for_break (range 0 (length route1 - 1)) (fun i s =>
      for_break (range 0 (length route2 - 1)) (fun j s =>
        let a := at_ route1 i in
        let b := at_ route1 (i + 1) in
        let c := at_ route2 j in
        let e := at_ route2 (j + 1) in           (* [d] in the code *)
        (* a->c b->d, lines 114-141 *)
        let delta := D a c + D b e - D a b - D c e in
        let r1nd := nthZ fwd_d1 i + nthZ fwd_d2 j in
        let r2nd := nthZ rwd_d1 (i + 1) + nthZ rwd_d2 (j + 1) in
        let violated :=
          (exceeds C eps r1nd || exceeds C eps r2nd) ||
          (exceeds L eps (nthZ fwd_l1 i + D a c + nthZ fwd_l2 j) ||
           exceeds L eps (nthZ rwd_l1 (i + 1) + D b e + nthZ rwd_l2 (j + 1))) in
        let '(s1, brk) := try_feasible eps first delta violated
                            (true, i, j, D a c - D a b, if_set C r1nd) s in
        if brk then (s1, true)
        else
          (* a->d c->b, lines 149-176 *)
          let delta := D a e + D b c - D a b - D c e in
          let r1nd := nthZ fwd_d1 i + nthZ rwd_d2 (j + 1) in
          let r2nd := nthZ rwd_d1 (i + 1) + nthZ fwd_d2 j in
          let violated :=
            (exceeds C eps r1nd || exceeds C eps r2nd) ||
            (exceeds L eps (nthZ fwd_l1 i + D a e + nthZ rwd_l2 (j + 1)) ||
             exceeds L eps (nthZ rwd_l1 (i + 1) + D b c + nthZ fwd_l2 j)) in
          try_feasible eps first delta violated (false, i, j, D a e - D a b, if_set C r1nd) s1) s)
      (None, start_delta best_delta) in
  match best_move with
  | Some (alt1, i, j, r1_delta, r1nd) =>
      Some ([ (* route 1, lines 188-192 *)
              mkrd (slice_to (i + 1) route1 ++ (if alt1 then rslice_all j route2 else slice_from (j + 1) route2))
                   (rd_cost rd1 + r1_delta) r1nd;
              (* route 2, lines 194-198: stored with the cost and the demand of route 1 *)
              mkrd (rslice_end i route1 ++ (if alt1 then slice_from (j + 1) route2 else rslice_all j route2))
                   (rd_cost rd1 + r1_delta) r1nd ], bd)
  | None => None
  end.

(** do_1point_move, lines 208-291 *)
Definition do_1point_move (eps : Z) (rd1 rd2 : routedata) (D : matrix) (d : demands) (C L : limit)
           (first : bool) (best_delta : option Z) : option (list routedata * Z) :=
  let route1 := rd_route rd1 in
  let route2 := rd_route rd2 in
  let '((best_move, bd), _) :=
    for_break (range 1 (length route1 - 1)) (fun i s =>
      let remove_after := at_ route1 (i - 1) in
      let to_move := at_ route1 i in
      let remove_before := at_ route1 (i + 1) in
      let remove_delta := D remove_after remove_before - D remove_after to_move - D to_move remove_before in
      if exceeds C eps (odem rd2 + d to_move) then (s, false)         (* continue *)
      else
        for_break (range 1 (length route2)) (fun j s =>
          let insert_after := at_ route2 (j - 1) in
          let insert_before := at_ route2 j in
          let insert_delta := D insert_after to_move + D to_move insert_before - D insert_after insert_before in
          if exceeds L eps (rd_cost rd2 + insert_delta) then (s, false)   (* continue *)
          else try_move eps first (remove_delta + insert_delta) (i, j, remove_delta, insert_delta) s) s)
      (None, start_delta best_delta) in
  match best_move with
  | Some (i, j, remove_delta, insert_delta) =>
      let to_move := at_ route1 i in
      Some ([ mkrd (slice_to i route1 ++ slice_from (i + 1) route1) (rd_cost rd1 + remove_delta)
                   (if_set C (odem rd1 - d to_move));
              mkrd (slice_to j route2 ++ [to_move] ++ slice_from j route2) (rd_cost rd2 + insert_delta)
                   (if_set C (odem rd2 + d to_move)) ],
            remove_delta + insert_delta)
  | None => None
  end.

(** do_2point_move, lines 294-382.  The L test has no tolerance (line 355). *)
Definition do_2point_move (eps : Z) (rd1 rd2 : routedata) (D : matrix) (d : demands) (C L : limit)
           (first : bool) (best_delta : option Z) : option (list routedata * Z) :=
  let route1 := rd_route rd1 in
  let route2 := rd_route rd2 in
  let '((best_move, bd), _) :=
    for_break (range 1 (length route1 - 1)) (fun i s =>
      let to_swap1 := at_ route1 i in
      let swap1_after := at_ route1 (i - 1) in
      let swap1_before := at_ route1 (i + 1) in
      for_break (range 1 (length route2 - 1)) (fun j s =>
        let to_swap2 := at_ route2 j in
        if exceeds C eps (odem rd1 - d to_swap1 + d to_swap2) ||
           exceeds C eps (odem rd2 - d to_swap2 + d to_swap1) then (s, false)     (* continue *)
        else
          let swap2_after := at_ route2 (j - 1) in
          let swap2_before := at_ route2 (j + 1) in
          let route1_delta := - D swap1_after to_swap1 - D to_swap1 swap1_before
                              + D swap1_after to_swap2 + D to_swap2 swap1_before in
          let route2_delta := - D swap2_after to_swap2 - D to_swap2 swap2_before
                              + D swap2_after to_swap1 + D to_swap1 swap2_before in
          if exceeds L 0 (rd_cost rd1 + route1_delta) || exceeds L 0 (rd_cost rd2 + route2_delta)
          then (s, false)                                                         (* continue *)
          else try_move eps first (route1_delta + route2_delta) (i, j, route1_delta, route2_delta) s) s)
      (None, start_delta best_delta) in
  match best_move with
  | Some (i, j, route1_delta, route2_delta) =>
      let to_swap1 := at_ route1 i in
      let to_swap2 := at_ route2 j in
      Some ([ mkrd (slice_to i route1 ++ [to_swap2] ++ slice_from (i + 1) route1) (rd_cost rd1 + route1_delta)
                   (if_set C (odem rd1 - d to_swap1 + d to_swap2));
              mkrd (slice_to j route2 ++ [to_swap1] ++ slice_from (j + 1) route2) (rd_cost rd2 + route2_delta)
                   (if_set C (odem rd2 - d to_swap2 + d to_swap1)) ],
            route1_delta + route2_delta)
  | None => None
  end.

(** The position search of do_insert_move, lines 434-459: [None] if no position is within L,
    otherwise (position, delta).  The position -1 of the append branch is the index of the
    closing depot.  [last_one] is [ni==len(unrouted)-1]. *)
Definition find_insert_pos (eps : Z) (D : matrix) (L : limit) (first last_one : bool)
           (ansatz_route : list nat) (ansatz_l : Z) (node : nat) : option (nat * Z) :=
  if negb first || match truthy L with Some _ => true | None => false end
  then
    fst (for_break (range 1 (length ansatz_route)) (fun i s =>
      let insert_after := at_ ansatz_route (i - 1) in
      let insert_before := at_ ansatz_route i in
      let insert_delta := D insert_after node + D node insert_before - D insert_after insert_before in
      if exceeds L eps (ansatz_l + insert_delta) then (s, false)
      else
        let s' := match s with
                  | None => Some (i, insert_delta)
                  | Some (_, bid) => if insert_delta <? bid then Some (i, insert_delta) else s
                  end in
        (s', first && last_one)) None)
  else
    let n := length ansatz_route in
    let insert_after := at_ ansatz_route (n - 2) in
    Some ((n - 1)%nat, D insert_after node + D node 0%nat - D insert_after 0%nat).

(** The loop over the customers to insert, lines 432-475. *)
Fixpoint insert_loop (eps : Z) (D : matrix) (d : demands) (C L : limit) (first : bool)
         (best_delta : option Z) (unrouted : list nat) (route : list nat) (l dem total : Z)
  : option (list nat * Z * Z * Z) :=
  match unrouted with
  | [] => Some (route, l, dem, total)
  | node :: rest =>
      match find_insert_pos eps D L first (match rest with [] => true | _ => false end) route l node with
      | None => None
      | Some (pos, delta) =>
          let dem' := match truthy C with Some _ => dem + d node | None => dem end in
          let route' := slice_to pos route ++ [node] ++ slice_from pos route in
          let total' := total + delta in
          if match best_delta with Some b => b <? total' + eps | None => false end
          then None
          else insert_loop eps D d C L first best_delta rest route' (l + delta) dem' total'
      end
  end.

(** do_insert_move, lines 385-477, for a list of unrouted customers; [unrouted_demand] is
    their demand (lines 413-420: [d[n]], the sum, or the demand field of a RouteData). *)
Definition do_insert_list (eps : Z) (unrouted : list nat) (unrouted_demand : Z) (rd : routedata)
           (D : matrix) (d : demands) (C L : limit) (first : bool) (best_delta : option Z)
  : option (list routedata * Z) :=
  if exceeds C eps (odem rd + unrouted_demand) then None
  else
    match insert_loop eps D d C L first best_delta unrouted (rd_route rd) (rd_cost rd) (odem rd) 0 with
    | None => None
    | Some (route, l, dem, total) =>
        Some ([empty_rd;
               mkrd route l (match truthy C with Some _ => Some dem | None => rd_demand rd end)], total)
    end.

(** The three forms of the first argument, lines 413-420. *)
Definition do_insert_customer eps (n : nat) rd D (d : demands) C L first bd :=
  do_insert_list eps [n] (d n) rd D d C L first bd.
Definition do_insert_customers eps (ns : list nat) rd D (d : demands) C L first bd :=
  do_insert_list eps ns (sumZ (map d ns)) rd D d C L first bd.
(** [unrouted.route[1:-1]] *)
Definition do_insert_route eps (ur : routedata) rd D (d : demands) C L first bd :=
  do_insert_list eps (slice 1 (length (rd_route ur) - 1) (rd_route ur)) (odem ur) rd D d C L first bd.

(** itertools.permutations(l, k): choices of k elements in index order. *)
Fixpoint selects {A} (l : list A) : list (A * list A) :=
  match l with
  | [] => []
  | x :: t => (x, t) :: map (fun p => (fst p, x :: snd p)) (selects t)
  end.
Fixpoint kperms {A} (k : nat) (l : list A) : list (list A) :=
  match k with
  | O => [[]]
  | S k' => flat_map (fun p => map (cons (fst p)) (kperms k' (snd p))) (selects l)
  end.
Definition permutations {A} (l : list A) : list (list A) := kperms (length l) l.

(** [total_delta+S_EPS<best_delta] where best_delta may be float("inf"). *)
Definition lt_inf (x : Z) (b : option Z) : bool := match b with None => true | Some y => x <? y end.

(** Insert one customer into the first accepting route, lines 554-568.  When the insertion
    is possible but total_delta is too large the changed route is kept and the search
    continues with the next route.  Returns (routes, total_delta, inserted). *)
Fixpoint redistribute_one (eps : Z) (D : matrix) (d : demands) (C L : limit) (first : bool)
         (best_delta : option Z) (node : nat) (pre rds : list routedata) (total : Z)
  : list routedata * Z * bool :=
  match rds with
  | [] => (pre, total, false)
  | rd2 :: rest =>
      match do_insert_customer eps node rd2 D d C L first None with
      | Some ([_; new_rd2], delta) =>
          if lt_inf (total + delta + eps) best_delta
          then (pre ++ new_rd2 :: rest, total + delta, true)
          else redistribute_one eps D d C L first best_delta node (pre ++ [new_rd2]) rest (total + delta)
      | _ => redistribute_one eps D d C L first best_delta node (pre ++ [rd2]) rest total
      end
  end.

(** Insert all customers of one ordering, lines 549-572. *)
Fixpoint redistribute_all (eps : Z) (D : matrix) (d : demands) (C L : limit) (first : bool)
         (best_delta : option Z) (nodes : list nat) (rds : list routedata) (total : Z)
  : option (list routedata * Z) :=
  match nodes with
  | [] => Some (rds, total)
  | n :: rest =>
      match redistribute_one eps D d C L first best_delta n [] rds total with
      | (rds', total', true) => redistribute_all eps D d C L first best_delta rest rds' total'
      | (_, _, false) => None
      end
  end.

(** do_redistribute_move, lines 480-585.  [recombination_level] 0..3. *)
Definition do_redistribute_move (eps : Z) (rd1 : routedata) (receiving : list routedata)
           (D : matrix) (d : demands) (C L : limit) (first : bool) (best_delta0 : option Z)
           (level : nat) : option (list routedata * Z) :=
  let prune := match truthy C with
               | Some c => sumZ (map (fun r => c - odem r) receiving) <? odem rd1 - eps
               | None => false
               end in
  if prune then None
  else
    let nodes := slice 1 (length (rd_route rd1) - 1) (rd_route rd1) in
    let node_orders := match level with 1%nat | 3%nat => permutations nodes | _ => [nodes] end in
    let route_orders := match level with 2%nat | 3%nat => permutations receiving | _ => [receiving] end in
    let orderings := flat_map (fun ns => map (fun rs => (ns, rs)) route_orders) node_orders in
    let '(best_delta, best) :=
      fold_left (fun s o =>
        let '(best_delta, best) := s in
        match redistribute_all eps D d C L first best_delta (fst o) (snd o) 0 with
        | Some (rds, total) =>
            if lt_inf total best_delta then (Some total, Some (rds, total)) else s
        | None => s
        end) orderings (truthy best_delta0, None) in
    match best with
    | Some (rds, total) => Some (empty_rd :: rds, total)
    | None => None
    end.

(** do_chain_move, lines 588-682: no tolerance in the C and L tests, none for route 1. *)
Definition do_chain_move (eps : Z) (rd1 rd2 rd3 : routedata) (D : matrix) (d : demands) (C L : limit)
           (first : bool) (best_delta : option Z) : option (list routedata * Z) :=
  let route1 := rd_route rd1 in
  let route2 := rd_route rd2 in
  let route3 := rd_route rd3 in
  let '((best_move, bd), _) :=
    for_break (range 1 (length route1 - 1)) (fun i s =>
      let remove_after := at_ route1 (i - 1) in
      let to_move := at_ route1 i in
      let remove_before := at_ route1 (i + 1) in
      let remove_delta := D remove_after remove_before - D remove_after to_move - D to_move remove_before in
      for_break (range 1 (length route2 - 1)) (fun j s =>
        let replace_after := at_ route2 (j - 1) in
        let to_replace := at_ route2 j in
        let replace_before := at_ route2 (j + 1) in
        if exceeds C 0 (odem rd2 - d to_replace + d to_move) || exceeds C 0 (odem rd3 + d to_replace)
        then (s, false)                                                          (* continue *)
        else
          let replace_delta := D replace_after to_move + D to_move replace_before
                               - D replace_after to_replace - D to_replace replace_before in
          if exceeds L 0 (rd_cost rd2 + replace_delta) then (s, false)           (* continue *)
          else
            for_break (range 1 (length route3)) (fun k s =>
              let insert_after := at_ route3 (k - 1) in
              let insert_before := at_ route3 k in
              let insert_delta := D insert_after to_replace + D to_replace insert_before
                                  - D insert_after insert_before in
              if exceeds L 0 (rd_cost rd3 + insert_delta) then (s, false)        (* continue *)
              else try_move eps first (remove_delta + replace_delta + insert_delta)
                     (i, j, k, remove_delta, replace_delta, insert_delta) s) s) s)
      (None, start_delta best_delta) in
  match best_move with
  | Some (i, j, k, remove_delta, replace_delta, insert_delta) =>
      let to_move := at_ route1 i in
      let to_replace := at_ route2 j in
      Some ([ mkrd (slice_to i route1 ++ slice_from (i + 1) route1) (rd_cost rd1 + remove_delta)
                   (if_set C (odem rd1 - d to_move));
              mkrd (slice_to j route2 ++ [to_move] ++ slice_from (j + 1) route2) (rd_cost rd2 + replace_delta)
                   (if_set C (odem rd2 - d to_replace + d to_move));
              mkrd (slice_to k route3 ++ [to_replace] ++ slice_from k route3) (rd_cost rd3 + insert_delta)
                   (if_set C (odem rd3 + d to_replace)) ], bd)
  | None => None
  end.
