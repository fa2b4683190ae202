(** * Model of verypy/classic_heuristics/wren_holliday_sweep.py

    The improvement heuristic of Wren and Holliday.  The functions of the file change the list of routes
    in place; here they work on a [wst], which keeps besides the routes the list of all earlier states of
    that list, so that an interrupt between two assignments can be modelled.

    Simplifications: the tolerances C_EPS and S_EPS are one number [eps]; costs are integers, so the test
    [sol_f<prev_Q_point_sol_f*0.95] is [20*sol_f < 19*prev]; d is given.  Angles are not computed:
    [overlap a b] tells whether the ranges of angles of two routes with customers [a] and [b] overlap,
    [gap l] where the largest gap of a part [l] of the sweep is, and [order] is the sweep itself.
    [set_order] is the order in which Python goes through a set. *)
From Verif Require Import Spec PyBase M_util M_routedata M_intra M_inter M_psavings M_savfam M_sweep.

Record wst := mkw { ws_routes : list routedata; ws_log : list (list routedata) }.
(** Replace the list of routes by [rs]; the list as it was goes to the log. *)
Definition put (rs : list routedata) (st : wst) : wst := mkw rs (ws_routes st :: ws_log st).
Definition route_at (i : nat) (st : wst) : routedata := nth i (ws_routes st) empty_rd.
(** [routes[i] = rd] *)
Definition assign (i : nat) (rd : routedata) (st : wst) : wst := put (set_nth i rd (ws_routes st)) st.

(** The customers of a route, [route[1:-1]] *)
Definition inner (rd : routedata) : list nat := slice 1 (length (rd_route rd) - 1) (rd_route rd).

(** _remove_empty_in_place, lines 107-108 *)
Definition remove_empty (st : wst) : wst := put (filter (fun r => negb (rd_is_empty r)) (ws_routes st)) st.

(** What a loop reports: the flag improvement_found, or that it has not ended within the fuel *)
Inductive outcome := Ended (improved : bool) | Running.

Section Heuristics.
Variable eps : Z.
Variable N : nat.
Variable D : matrix.
Variable d : demands.
Variables C L : limit.
Variable order : list nat.
Variable overlap : list nat -> list nat -> bool.
Variable gap : list nat -> nat.
Variable set_order : list nat -> list nat.

(** A move within route [i]: lines 118-121 and 142-145, [rd.route = new_route; rd.cost += delta] *)
Definition move_within (op : list nat -> option (list nat * Z)) (i : nat) (st : wst) : wst * bool :=
  let rd := route_at i st in
  match op (rd_route rd) with
  | Some (new_route, delta) => (assign i (mkrd new_route (rd_cost rd + delta) (rd_demand rd)) st, true)
  | None => (st, false)
  end.

(** A for loop over indices whose body may not end; [improved] collects the flags *)
Fixpoint over {A} (l : list A) (body : A -> wst -> wst * outcome) (st : wst) (improved : bool) : wst * outcome :=
  match l with
  | [] => (st, Ended improved)
  | i :: t => match body i st with
              | (st', Ended b) => over t body st' (improved || b)
              | (st', Running) => (st', Running)
              end
  end.

(** inspect_heuristic, lines 110-123 *)
Fixpoint inspect_while (fuel : nat) (i : nat) (st : wst) (improved : bool) : wst * outcome :=
  match fuel with
  | O => (st, Running)
  | S fuel' => match move_within (fun r => do_2opt_move eps r D true None) i st with
               | (st', true) => inspect_while fuel' i st' true
               | (st', false) => (st', Ended improved)
               end
  end.
Definition inspect_heuristic (fuel : nat) (st : wst) : wst * outcome :=
  over (range 0 (length (ws_routes st)))
       (fun i st => if rd_is_empty (route_at i st) then (st, Ended false) else inspect_while fuel i st false) st false.

(** single_heuristic, lines 125-162.  rd1 is always routes[rd1_idx]. *)
Definition single_move (i j : nat) (st : wst) : wst * bool :=
  if Nat.eqb i j then (st, false)
  else match do_1point_move eps (route_at i st) (route_at j st) D d C L true None with
       | Some ([new_rd1; new_rd2], _) => (assign j new_rd2 (assign i new_rd1 st), true)
       | _ => (st, false)
       end.
Definition single_pass (i : nat) (st : wst) : wst * bool :=
  let '(st1, moved) := move_within (fun r => do_relocate_move eps r D true None) i st in
  fold_left (fun s j => let '(st, b) := s in let '(st', b') := single_move i j st in (st', b || b'))
            (range 0 (length (ws_routes st1))) (st1, moved).
Fixpoint single_while (fuel : nat) (i : nat) (st : wst) (improved : bool) : wst * outcome :=
  match fuel with
  | O => (st, Running)
  | S fuel' => match single_pass i st with
               | (st', true) => single_while fuel' i st' true
               | (st', false) => (st', Ended improved)
               end
  end.
Definition single_heuristic (fuel : nat) (st : wst) : wst * outcome :=
  over (range 0 (length (ws_routes st)))
       (fun i st => if rd_is_empty (route_at i st) then (st, Ended false) else single_while fuel i st false) st false.

(** pair_heuristic, lines 165-213.  [smallest] is the entry of smallest_demands: entries are kept for all
    routes in the list, and a route is not changed while it is in the list. *)
Definition least (l : list Z) : Z := match l with [] => 0 | x :: t => fold_left Z.min t x end.
Definition smallest (rd : routedata) : Z := if rd_is_empty rd then 0 else least (map d (inner rd)).
Definition no_room (rd2 rd3 : routedata) : bool :=
  match truthy C with
  | Some c => let r3_room_left := c + eps - smallest rd3 in
              (r3_room_left <? least (map d (range 0 N))) || (r3_room_left <? smallest rd2)
  | None => false
  end.
Definition pair_move (ix : list nat) (st : wst) : wst * outcome :=
  match ix with
  | [i; j; k] =>
      let rd1 := route_at i st in
      let rd2 := route_at j st in
      let rd3 := route_at k st in
      if rd_is_empty rd1 || rd_is_empty rd2 then (st, Ended false)
      else if no_room rd2 rd3 then (st, Ended false)
      else match do_chain_move eps rd1 rd2 rd3 D d C L true None with
           | Some ([new_rd1; new_rd2; new_rd3], _) =>
               (assign k new_rd3 (assign j new_rd2 (assign i new_rd1 st)), Ended true)
           | _ => (st, Ended false)
           end
  | _ => (st, Ended false)
  end.
Definition pair_heuristic (st : wst) : wst * outcome :=
  over (kperms 3 (range 0 (length (ws_routes st)))) pair_move st false.

(** delete_heuristic, lines 215-244: the best delta so far ([None]: infinite) and its routes *)
Definition others (i : nat) (rds : list routedata) : list routedata :=
  filter (fun r => negb (rd_is_empty r)) (firstn i rds ++ skipn (S i) rds).
Definition delete_best (rds : list routedata) : option Z * option (list routedata) :=
  fold_left (fun s i =>
    let rd1 := nth i rds empty_rd in
    if rd_is_empty rd1 then s
    else match do_redistribute_move eps rd1 (others i rds) D d C L true (fst s) 0 with
         | Some (result, delta) => if lt_inf delta (fst s) then (Some delta, Some result) else s
         | None => s
         end) (range 0 (length rds)) (None, None).
Definition delete_heuristic (st : wst) : wst * bool :=
  match snd (delete_best (ws_routes st)) with
  | Some result => (put result st, true)
  | None => (st, false)
  end.

(** complain_heuristic, lines 246-347.  The search for one customer, lines 264-322: the best replacement
    (delta, route index, position), and a replacement whose removed customer fits elsewhere. *)
Record fit := mkfit { ft_rd2_idx : nat; ft_new_rd2 : routedata; ft_rd1_idx : nat; ft_new_rd1 : routedata }.
Definition refit (i : nat) (removed : nat) (rds : list routedata) : option (nat * routedata) :=
  fst (for_break (range 0 (length rds)) (fun k s =>
    if Nat.eqb i k then (s, false)
    else match do_insert_customer eps removed (nth k rds empty_rd) D d C L true None with
         | Some ([_; new_rd2], _) => (Some (k, new_rd2), true)
         | _ => (s, false)
         end) None).
Definition replaced (route : list nat) (i node : nat) : list nat := slice_to i route ++ [node] ++ slice_from (i + 1) route.
Definition complain_route (node i : nat) (rds : list routedata) (s : option (Z * nat * nat) * option fit)
  : (option (Z * nat * nat) * option fit) * bool :=
  let rd1 := nth i rds empty_rd in
  if rd_is_empty rd1 then (s, false)
  else
    let route1 := rd_route rd1 in
    for_break (range 1 (length route1 - 1)) (fun p s =>
      let was_replaced := at_ route1 p in
      let replace_d := match truthy C with Some _ => odem rd1 - d was_replaced + d node | None => 0 end in
      if exceeds C eps replace_d then (s, false)
      else
        let replace_delta := D (at_ route1 (p - 1)) node + D node (at_ route1 (p + 1))
                             - D (at_ route1 (p - 1)) was_replaced - D was_replaced (at_ route1 (p + 1)) in
        if exceeds L eps (rd_cost rd1 + replace_delta) then (s, false)
        else
          let best := match fst s with
                      | None => Some (replace_delta, i, p)
                      | Some (b, _, _) => if replace_delta <? b then Some (replace_delta, i, p) else fst s
                      end in
          match refit i was_replaced rds with
          | Some (k, new_rd2) =>
              ((best, Some (mkfit k new_rd2 i (mkrd (replaced route1 p node) (rd_cost rd1 + replace_delta) (Some replace_d)))), true)
          | None => ((best, None), false)
          end) s.
Definition complain_search (node : nat) (rds : list routedata) : option (Z * nat * nat) * option fit :=
  fst (for_break (range 0 (length rds)) (fun i s => complain_route node i rds s) (None, None)).
(** One unrouted customer, lines 260-342; the state is (routes, was_assigned, was_omitted, improvement_found) *)
Definition cst := (list routedata * list nat * list nat * bool)%type.
Definition complain_one (s : cst) (node : nat) : cst :=
  let '(rds, assigned, omitted, improved) := s in
  match complain_search node rds with
  | (_, Some f) =>
      (set_nth (ft_rd1_idx f) (ft_new_rd1 f) (set_nth (ft_rd2_idx f) (ft_new_rd2 f) rds), node :: assigned, omitted, true)
  | (Some (delta, i, p), None) =>
      let rd := nth i rds empty_rd in
      let to_remove := at_ (rd_route rd) p in
      if is_set C && (d to_remove <? d node)
      then (set_nth i (mkrd (replaced (rd_route rd) p node) (rd_cost rd + delta) (Some (odem rd - d to_remove + d node))) rds,
            node :: assigned, to_remove :: omitted, true)
      else s
  | (None, None) => s
  end.
Definition mem_nat (x : nat) (l : list nat) : bool := existsb (Nat.eqb x) l.
(** Lines 345-346: [unrouted_nodes -= was_assigned; unrouted_nodes |= was_omitted] *)
Definition complain_heuristic (rds : list routedata) (unrouted : list nat) : list routedata * list nat * bool :=
  let '(rds', assigned, omitted, improved) := fold_left complain_one (set_order unrouted) (rds, [], [], false) in
  let left := filter (fun n => negb (mem_nat n assigned)) unrouted in
  (rds', left ++ filter (fun n => negb (mem_nat n left)) (nodup Nat.eq_dec omitted), improved).

(** disentangle_heuristic, lines 352-467.  The while loop has one turn: entangled is not set again.
    The refinement of the routes of the sub-sweep, lines 420-433; [None]: not ended within the fuel *)
Fixpoint refine (fuel : nat) (rds : list routedata) (omitted : list nat) : option (list routedata * list nat) :=
  match fuel with
  | O => None
  | S fuel' =>
      match inspect_heuristic fuel' (mkw rds []) with
      | (st1, Ended b1) =>
          match single_heuristic fuel' (mkw (ws_routes st1) []) with
          | (st2, Ended b2) =>
              let '(rds3, omitted3, b3) :=
                match omitted with [] => (ws_routes st2, [], false) | _ => complain_heuristic (ws_routes st2) omitted end in
              if b1 || b2 || b3 then refine fuel' rds3 omitted3 else Some (rds3, omitted3)
          | (_, Running) => None
          end
      | (_, Running) => None
      end
  end.
(** Lines 386-433: the new routes for the customers of two routes and the customers left over.
    [Some None]: sweep_init raises, which cannot happen for positions within the sweep. *)
Definition entangled_routes (fuel : nat) (rd1 rd2 : routedata) : option (option (list routedata * list nat)) :=
  let et_nodes := inner rd1 ++ inner rd2 in
  let et_order := filter (fun n => mem_nat n et_nodes) order in
  match sweep_init eps eps D d C L false (in_sweep_order D) et_order N [] CW (SeedPositions [gap et_order]) fuel with
  | None => None
  | Some (SwReturns (Some sol)) =>
      let et_routes := from_solution sol D d in
      option_map Some (refine fuel (firstn 2 et_routes) (flat_map inner (skipn 2 et_routes)))
  | Some _ => Some None
  end.
Inductive disentangled := Keep | Replace (rd1 rd2 : routedata) | StillRunning | Raises.
(** Lines 437-446 *)
Definition disentangle_pair (fuel : nat) (rd1 rd2 : routedata) : disentangled :=
  match entangled_routes fuel rd1 rd2 with
  | None => StillRunning
  | Some None => Raises
  | Some (Some (et_routes, omitted)) =>
      match et_routes, omitted with
      | [a], [] => Replace a empty_rd
      | [a; b], [] => if rd_cost a + rd_cost b + eps <? rd_cost rd1 + rd_cost rd2 then Replace a b else Keep
      | _, _ => Keep
      end
  end.
(** The flag returned is the one set in line 354, False: nothing sets it. *)
Definition disentangle_at (fuel : nat) (ix : list nat) (st : wst) : wst * outcome :=
  match ix with
  | [i; j] =>
      let rd1 := route_at i st in
      let rd2 := route_at j st in
      if rd_is_empty rd1 || rd_is_empty rd2 then (st, Ended false)
      else if overlap (inner rd1) (inner rd2) then
        match disentangle_pair fuel rd1 rd2 with
        | Keep | Raises => (st, Ended false)
        | Replace a b => (assign j b (assign i a st), Ended false)
        | StillRunning => (st, Running)
        end
      else (st, Ended false)
  | _ => (st, Ended false)
  end.
Definition disentangle_heuristic (fuel : nat) (st : wst) : wst * outcome :=
  over (kperms 2 (range 0 (length (ws_routes st)))) (disentangle_at fuel) st false.

(** ** wren_holliday_init, lines 477-751 *)
Variable minimize_K : bool.
Variable full_convergence : bool.

(** The variables of the loop of lines 616-737.  omitted_nodes is the empty set throughout: nothing adds to
    it, so lines 650-673 are not executed and omitted_were_assigned is False. *)
Record whstate := mkwh { wh_st : wst; wh_deleted : bool; wh_prev_Q : option Z; wh_prev_f : option Z }.

(** [if improved and minimize_K: _remove_empty_in_place(routes)] *)
Definition tidy (improved : bool) (st : wst) : wst := if improved && minimize_K then remove_empty st else st.

(** Lines 626-690 up to the Q-point *)
Definition up_to_Q (fuel : nat) (st : wst) : wst * outcome :=
  let st0 := remove_empty st in
  let st1 := if minimize_K then st0 else put (ws_routes st0 ++ [empty_rd]) st0 in
  match inspect_heuristic fuel st1 with
  | (st2, Running) => (st2, Running)
  | (st2, Ended b1) =>
      match single_heuristic fuel (tidy b1 st2) with
      | (st3, Running) => (st3, Running)
      | (st3, Ended b2) => (tidy b2 st3, Ended (b1 || b2))
      end
  end.
(** Lines 692-713; returns also the new value of [deleted] *)
Definition after_Q (fuel : nat) (deleted : bool) (st : wst) : wst * outcome * bool :=
  let '(st1, b1) := if Nat.leb N 80 then
                      match pair_heuristic st with (st', Ended b) => (tidy b st', b) | (st', Running) => (st', false) end
                    else (st, false) in
  let '(st2, b2) := if deleted then let '(st', b) := delete_heuristic st1 in (tidy b st', b) else (st1, false) in
  match disentangle_heuristic fuel st2 with
  | (st3, Running) => (st3, Running, b2)
  | (st3, Ended b3) => (tidy b3 st3, Ended (b1 || b2 || b3), b2)
  end.
Definition total_cost (st : wst) : Z := sumZ (map rd_cost (ws_routes st)).
Inductive turn := Stop (st : wst) | Next (s : whstate) | Unfinished (st : wst).
(** One turn of the loop, lines 626-737 *)
Definition iteration (fuel : nat) (s : whstate) : turn :=
  match up_to_Q fuel (wh_st s) with
  | (st1, Running) => Unfinished st1
  | (st1, Ended changed1) =>
      let sol_f := total_cost st1 in
      if match wh_prev_Q s with None => true | Some q => 20 * sol_f <? 19 * q end
      then Next (mkwh st1 (wh_deleted s) (Some sol_f) (wh_prev_f s))
      else
        match after_Q fuel (wh_deleted s) st1 with
        | (st2, Running, _) => Unfinished st2
        | (st2, Ended changed2, deleted) =>
            let same := match truthy (wh_prev_f s) with Some p => Z.eqb p sol_f | None => false end in
            if (full_convergence && negb (changed1 || changed2)) || (negb full_convergence && negb deleted) || same
            then Stop st2
            else Next (mkwh st2 deleted (Some sol_f) (Some sol_f))
        end
  end.
(** The loop; [fuel] bounds the number of turns, and each loop within a turn.
    [(st, true)]: ended with [st]; [(st, false)]: still running. *)
Fixpoint improve_loop (inner_fuel fuel : nat) (s : whstate) : wst * bool :=
  match fuel with
  | O => (wh_st s, false)
  | S fuel' => match iteration inner_fuel s with
               | Stop st => (st, true)
               | Unfinished st => (st, false)
               | Next s' => improve_loop inner_fuel fuel' s'
               end
  end.
Definition improve (fuel : nat) (sol : list nat) : wst * bool :=
  improve_loop fuel fuel (mkwh (mkw (from_solution sol D d) []) true None None).
(** Lines 742-744: [sol = [0]+[n for r in routes for n in r.route[1:]]], without_empty_routes *)
Definition to_sol (rds : list routedata) : list nat :=
  without_empty_routes (0%nat :: flat_map (fun r => slice_from 1 (rd_route r)) rds).

(** Lines 603-757: the improved solutions of all initial ones; [None]: still running *)
Fixpoint improve_all (fuel : nat) (sols : list (list nat)) : option (list (list nat)) :=
  match sols with
  | [] => Some []
  | sol :: t => match improve fuel sol with
                | (st, true) => option_map (cons (to_sol (ws_routes st))) (improve_all fuel t)
                | (_, false) => None
                end
  end.
(** [sweeps]: the pairs of direction (ccw) and starting position of lines 526-572 (M_whstart.v), which depend on the
    angles.  Lines 577-581: one call of sweep_init for each; [Some None]: IndexError. *)
Fixpoint initial_sols (sweeps : list (bool * nat)) (fuel : nat) : option (option (list (list nat))) :=
  match sweeps with
  | [] => Some (Some [])
  | (ccw, start) :: t =>
      match sweep_init eps eps D d C L false (in_sweep_order D) order N [] (if ccw then CCW else CW) (SeedPositions [start]) fuel with
      | None => None
      | Some (SwReturns (Some sol)) => option_map (option_map (cons sol)) (initial_sols t fuel)
      | Some _ => Some None
      end
  end.
(** The best solution with the test of lines 751-754, is_better_sol starting from infinity *)
Definition wh_best (sols : list (list nat)) : option (list nat) :=
  option_map (fun c => snd (fst (fst c))) (best_of minimize_K (map (candidate D tt) sols)).
Inductive wh_result := WhReturns (sol : option (list nat)) | WhRaises.
Definition wren_holliday_init (sweeps : list (bool * nat)) (fuel : nat) : option wh_result :=
  match initial_sols sweeps fuel with
  | None => None
  | Some None => Some WhRaises
  | Some (Some sols) => option_map (fun l => WhReturns (wh_best l)) (improve_all fuel sols)
  end.

(** KeyboardInterrupt in the loop of phase two, lines 739-740 and 742-757, while the solution after [done] is
    improved and the list of routes is [rds]: the argument it is raised with *)
Definition interrupted_at (improved : list (list nat)) (rds : list routedata) : option (list nat) :=
  wh_best (improved ++ [to_sol rds]).
(** KeyboardInterrupt in phase one after [k] sweeps, lines 583-598: [None]: raised without a solution.
    The interrupted sweep has no solution to hand over, since it is one of a single direction and start. *)
Definition phase_one_interrupted (sols : list (list nat)) (k : nat) : option (list nat) := wh_best (firstn k sols).
End Heuristics.
