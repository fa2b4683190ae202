(** * Model of verypy/classic_heuristics/sweep.py without improvement callbacks

    The sweep is given as the list of its nodes in the order of their angles (form b of the parameter
    [coordinates]); converting cartesian coordinates and sorting by angle: see M_polar.  Logging is left out. *)
From Verif Require Import Spec PyBase M_util M_psavings M_ssavings M_savfam.

(** _step, lines 71-78, for inc = 1 ([ccw]) and inc = -1 *)
Definition sw_step (ccw : bool) (max_val current : nat) : nat :=
  if ccw then if (max_val <? S current)%nat then 0%nat else S current
  else match current with O => max_val | S c => c end.

(** current_route: route, cost, demand and node_set without the depot, in the order of insertion *)
Record swroute := mkswr { sr_route : list nat; sr_cost : Z; sr_demand : Z; sr_set : list nat }.
(** RouteData([0]), lines 169-170 *)
Definition sr_new : swroute := mkswr [0%nat] 0 0 [].

Record swstate := mksw { sw_pos : nat; sw_node : option nat; sw_routes : list swroute; sw_routed : nat -> bool;
                         sw_count : nat; sw_current : swroute; sw_bound : Z; sw_complete : bool }.

Definition upd {A} (f : nat -> A) (i : nat) (x : A) : nat -> A := fun j => if Nat.eqb j i then x else f j.

(** routing_algo(D, nodes) gives a route and its cost *)
Definition routing := list nat -> list nat * Z.

Section Sweep.
Variables ceps seps : Z.
Variable D : matrix.
Variable d : demands.
Variables C L : limit.

Variable f : routing.
(** sweep[2], and whether step_inc is 1 *)
Variable order : list nat.
Variable ccw : bool.

Notation max_idx := (length order - 1)%nat.
Definition node_at (p : nat) : nat := nth p order 0%nat.

(** The current route with the tour that [f] gives for its nodes *)
Definition routed_by_f (r : swroute) : swroute :=
  let '(tour, cost) := f (0%nat :: sr_set r) in mkswr tour cost (sr_demand r) (sr_set r).

(** _ensure_L_feasible, lines 97-132.  [p] is pos_to_remove, [feasible_pos] L_feasible_sweep_pos;
    [None]: more than [fuel] rounds *)
Fixpoint ensure_L (fuel : nat) (p feasible_pos : nat) (r : swroute) (routed : nat -> bool)
  : option (nat * swroute * (nat -> bool)) :=
  if negb (exceeds L seps (sr_cost r)) then Some (feasible_pos, r, routed)
  else
    match fuel with
    | O => None
    | S fuel' =>
        let p' := sw_step (negb ccw) max_idx p in
        let n := node_at p' in
        if mem n (sr_set r)
        then ensure_L fuel' p' p'
               (routed_by_f (mkswr (sr_route r) (sr_cost r) (if is_set C then sr_demand r - d n else sr_demand r) (del n (sr_set r))))
               (upd routed n false)
        else ensure_L fuel' p' feasible_pos r routed
    end.

(** Lines 328-342: the position stepped to, and the node there unless all are routed; at most [n] steps.
    blocked_nodes is empty without callbacks. *)
Fixpoint next_unrouted (n : nat) (start p : nat) (routed : nat -> bool) : nat * option nat :=
  let p' := sw_step ccw max_idx p in
  if negb (routed (node_at p')) then (p', Some (node_at p'))
  else if Nat.eqb p' start then (p', None)
  else match n with O => (p', None) | S n' => next_unrouted n' start p' routed end.

(** Lines 307-320: the swept node is added to the current route *)
Definition add_node (r : swroute) (n : nat) : swroute :=
  mkswr (sr_route r) (sr_cost r) (if is_set C then sr_demand r + d n else sr_demand r) (sr_set r ++ [n]).
Definition bound_delta (r : swroute) (n : nat) : Z :=
  let prev := if (2 <? length (sr_route r))%nat
              then (if negb (Nat.eqb (last (sr_route r) 0%nat) 0) then last (sr_route r) 0%nat
                    else nth (length (sr_route r) - 2) (sr_route r) 0%nat)
              else 0%nat in
  - D prev 0%nat + D prev n + D n 0%nat.

(** Lines 307-342: the swept node is added unless it is routed, and the sweep steps on *)
Definition sw_proceed (pos : nat) (node : option nat) (routes : list swroute) (routed : nat -> bool) (count : nat) (r : swroute) (bound : Z) : swstate :=
  let '(r', routed', bound') :=
    match node with
    | Some n => if negb (routed n)
                then (add_node r n, upd routed n true, if is_set L then bound + bound_delta r n else bound)
                else (r, routed, bound)
    | None => (r, routed, bound)
    end in
  let '(pos', node') := next_unrouted (length order) pos pos routed' in
  mksw pos' node' routes routed' count r' bound' (match node' with None => true | Some _ => false end).

(** One round of the main loop, lines 189-342.  [inl]: break with these routes. *)
Definition sw_iter (alternatives : bool) (fuel : nat) (st : swstate) : option (list swroute + swstate) :=
  let cur := sw_current st in
  (* 205-207 *)
  let complete1 := sw_complete st ||
    match sw_node st with Some n => exceeds C ceps (sr_demand cur + d n) | None => false end in
  (* 208-213 *)
  let '(bound1, complete2) :=
    match sw_node st with
    | Some n => if negb complete1 && exceeds L 0 (sw_bound st)
                then let c := snd (f (0%nat :: sr_set cur ++ [n])) in (c, exceeds L seps c)
                else (sw_bound st, complete1)
    | None => (sw_bound st, complete1)
    end in
  let interesting := alternatives && (0 <? length (sr_set cur))%nat in
  if complete2 || interesting then
    (* 218-221 *)
    let cur1 := routed_by_f cur in
    (* 229-240 *)
    let ensured :=
      if is_set L then
        match ensure_L fuel (sw_pos st) (sw_pos st) cur1 (sw_routed st) with
        | None => None
        | Some (p, r, routed) =>
            if Nat.eqb p (sw_pos st) then Some (sw_pos st, sw_node st, r, routed, complete2, interesting)
            else Some (p, match sw_node st with Some _ => Some (node_at p) | None => None end, r, routed, true, false)
        end
      else Some (sw_pos st, sw_node st, cur1, sw_routed st, complete2, interesting) in
    match ensured with
    | None => None
    | Some (pos, node, cur2, routed, complete3, interesting2) =>
        if complete3 then
          (* 275-294 *)
          let routes := if (0 <? length (sr_set cur2))%nat then sw_routes st ++ [cur2] else sw_routes st in
          let count := (sw_count st + length (sr_set cur2))%nat in
          if (length order <=? count)%nat then Some (inl routes)
          else if alternatives then Some (inl routes)
          else Some (inr (sw_proceed pos node routes routed count sr_new 0))
        else
          (* 297-304 *)
          let routes := if interesting2 then sw_routes st ++ [cur2] else sw_routes st in
          Some (inr (sw_proceed pos node routes routed (sw_count st) cur2 (sr_cost cur2)))
    end
  else Some (inr (sw_proceed (sw_pos st) (sw_node st) (sw_routes st) (sw_routed st) (sw_count st) cur bound1)).

Fixpoint sw_loop (alternatives : bool) (fuel_L fuel : nat) (st : swstate) : option (list swroute) :=
  match fuel with
  | O => None
  | S fuel' =>
      match sw_iter alternatives fuel_L st with
      | None => None
      | Some (inl routes) => Some routes
      | Some (inr st') => sw_loop alternatives fuel_L fuel' st'
      end
  end.

(** do_one_sweep, lines 134-348.  Outer [None]: out of fuel; inner [None]: IndexError *)
Definition do_one_sweep (alternatives : bool) (start fuel : nat) : option (option (list swroute)) :=
  match nth_error order start with
  | None => Some None
  | Some n =>
      option_map Some (sw_loop alternatives fuel fuel
        (mksw start (Some n) [] (fun x => Nat.eqb x 0) 0 sr_new 0 false))
  end.

(** sol, lines 509-511 *)
Definition sweep_sol (routes : list swroute) : list nat :=
  without_empty_routes (flat_map (fun r => removelast (sr_route r)) routes ++ [0%nat]).
End Sweep.

(** ** sweep_init, lines 376-526 *)
Inductive sw_direction := CW | CCW | BothWays.
Definition sw_incs (dir : sw_direction) : list bool :=
  match dir with CCW => [true] | CW => [false] | BothWays => [true; false] end.

(** seed_node: the codes 0, -1, -2, other integers (of any sign), lists of positions *)
Inductive sw_seed := ClosestToDepot | SmallestAngle | BestAlternative | SeedNode (n : nat) | SeedPositions (ps : list nat).
Fixpoint index_of (x : nat) (l : list nat) : option nat :=
  match l with [] => None | y :: t => if Nat.eqb x y then Some 0%nat else option_map S (index_of x t) end.
(** np.argmin: the first of the smallest; [None]: ValueError for an empty list *)
Fixpoint argmin (l : list Z) : option (nat * Z) :=
  match l with
  | [] => None
  | x :: t => match argmin t with
              | Some (i, y) => if y <? x then Some (S i, y) else Some (0%nat, x)
              | None => Some (0%nat, x)
              end
  end.
(** starts, lines 457-468; [None]: ValueError or IndexError.  [SeedNode n]: abs(seed_node) is [n]. *)
Definition sw_starts (N : nat) (order : list nat) (rho : list Z) (s : sw_seed) : option (list nat) :=
  match s with
  | ClosestToDepot => option_map (fun x => [fst x]) (argmin rho)
  | SmallestAngle => Some [0%nat]
  | BestAlternative => Some (range 0 (N - 1))
  | SeedNode n => option_map (fun i => [i]) (index_of (n mod N) order)
  | SeedPositions ps => Some ps
  end.

(** routing_algo=None, lines 471-475 *)
Definition in_sweep_order (D : matrix) : routing := fun nodes => (nodes ++ [0%nat], objf (nodes ++ [0%nat]) D).

Section Init.
Variables ceps seps : Z.
Variable D : matrix.
Variable d : demands.
Variables C L : limit.
Variable minimize_K : bool.
Variable f : routing.
Variable order : list nat.

(** The candidates in the order they are made: outer [None] out of fuel, inner [None] IndexError *)
Fixpoint sw_candidates (runs : list (bool * nat)) (fuel : nat) : option (option (list (list nat))) :=
  match runs with
  | [] => Some (Some [])
  | (ccw, start) :: t =>
      match do_one_sweep ceps seps D d C L f order ccw false start fuel with
      | None => None
      | Some None => Some None
      | Some (Some routes) =>
          match sw_candidates t fuel with
          | None => None
          | Some None => Some None
          | Some (Some sols) => Some (Some (sweep_sol routes :: sols))
          end
      end
  end.
Definition sw_runs (dir : sw_direction) (starts : list nat) : list (bool * nat) :=
  flat_map (fun inc => map (pair inc) starts) (sw_incs dir).
(** Lines 512-526: the best of the candidates made so far.  This is returned, and raised with
    KeyboardInterrupt. *)
Definition sw_best (sols : list (list nat)) : option (list nat) :=
  option_map (fun c => snd (fst (fst c))) (best_of minimize_K (map (candidate D tt) sols)).
Inductive sw_result := SwReturns (sol : option (list nat)) | SwRaises.
Definition sweep_init (N : nat) (rho : list Z) (dir : sw_direction) (s : sw_seed) (fuel : nat) : option sw_result :=
  match sw_starts N order rho s with
  | None => Some SwRaises
  | Some starts =>
      match sw_candidates (sw_runs dir starts) fuel with
      | None => None
      | Some None => Some SwRaises
      | Some (Some sols) => Some (SwReturns (sw_best sols))
      end
  end.

(** KeyboardInterrupt is raised during the run after the first [k] runs (line 524): its argument *)
Definition sweep_interrupted (runs : list (bool * nat)) (k fuel : nat) : option (option (option (list nat))) :=
  option_map (option_map sw_best) (sw_candidates (firstn k runs) fuel).
End Init.
