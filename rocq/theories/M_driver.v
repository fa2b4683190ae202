(** * Model of verypy/local_search/__init__.py: do_local_search

    An operator is identified by a number; [sem] gives its behaviour.  The number of routes it
    takes (line 103) and whether it is in ROUTE_ORDER_SENSITIVE_OPERATORS (line 104) are part
    of it.  The matrix, demands and limits are fixed during a search, so they are part of the
    operator here; what remains are the routes and the operator strategy
    ([true] = LSOPT.FIRST_ACCEPT, [false] = LSOPT.BEST_ACCEPT).  Logging and the variables used
    only for it are left out. *)
From Verif Require Import Spec PyBase M_util M_routedata M_intra M_inter.

Inductive ls_op :=
| Op1 (f : list nat -> bool -> option (list nat * Z))
| OpK (k : nat) (order_sensitive : bool) (f : list routedata -> bool -> option (list routedata * Z)).

Inductive iter_opt := IterFirst | IterBest | IterAll | IterRepeated.
Definition is_iter_best (it : iter_opt) : bool := match it with IterBest => true | _ => false end.

(** route_datas, route_data_idxs, at_lsop_optimal (as the set of pairs (routes, operator)) and
    customer_to_at_lsopt_optimal (as the list of pairs (route, routes)), lines 80-86. *)
Record lstate := mkst { st_rds : list routedata; st_idxs : list nat;
                        st_opt : list (list nat * nat); st_c2o : list (nat * list nat) }.

Definition natlist_eqb (a b : list nat) : bool := if list_eq_dec Nat.eq_dec a b then true else false.

(** [ls_op in at_lsop_optimal[route_indices]], line 129 *)
Definition memoized (st : lstate) (ris : list nat) (op : nat) : bool :=
  existsb (fun p => natlist_eqb ris (fst p) && Nat.eqb op (snd p)) (st_opt st).

Definition op_count (o : ls_op) : nat := match o with Op1 _ => 1 | OpK k _ _ => k end.
Definition op_sensitive (o : ls_op) : bool := match o with Op1 _ => false | OpK _ s _ => s end.

Definition route_at (st : lstate) (ri : nat) : routedata := nth ri (st_rds st) empty_rd.

(** Calling the operator on route data, lines 136-148.  The new route data of the
    one-route case are built at lines 170-171. *)
Definition run_op (o : ls_op) (rds : list routedata) (first : bool) : option (list routedata * Z) :=
  match o with
  | Op1 f =>
      match rds with
      | old_rd :: _ =>
          match f (rd_route old_rd) first with
          | Some (r', delta) => Some ([mkrd r' (rd_cost old_rd + delta) (rd_demand old_rd)], delta)
          | None => None
          end
      | [] => None
      end
  | OpK _ _ f => f rds first
  end.
Definition call_op (o : ls_op) (st : lstate) (first : bool) (ris : list nat)
  : option (list routedata * Z) := run_op o (map (route_at st) ris) first.

Definition pairs := list (nat * routedata).

(** Recording a result, lines 159-177. *)
Definition record_result (eps : Z) (it : iter_opt) (o : ls_op) (ris : list nat)
           (rds : list routedata) (delta : Z) (best : option (pairs * Z)) : option (pairs * Z) :=
  match o with
  | Op1 _ =>
      let skip := match best with Some (_, bd) => bd <? delta + eps | None => false end && is_iter_best it in
      if skip then best
      else
        match best with
        | Some (prs, bd) => if is_iter_best it then Some (combine ris rds, 0 + delta)
                            else Some (prs ++ combine ris rds, bd + delta)
        | None => Some (combine ris rds, 0 + delta)
        end
  | OpK _ _ _ =>
      match best with
      | Some (_, bd) => if delta + eps <? bd then Some (combine ris rds, delta) else best
      | None => Some (combine ris rds, delta)
      end
  end.

(** The loop over the route combinations, lines 122-181.
    State: best (result, delta), combinations without improvement. *)
Definition search_op (eps : Z) (it : iter_opt) (sem : nat -> ls_op) (first : bool)
           (st : lstate) (op : nat) : option (pairs * Z) * list (list nat) :=
  let o := sem op in
  fst (for_break (kperms (op_count o) (st_idxs st)) (fun ris s =>
         if negb (op_sensitive o) && negb (is_sorted ris) then (s, false)       (* continue *)
         else if memoized st ris op then (s, false)                            (* continue *)
         else
           match call_op o st first ris with
           | None => ((fst s, snd s ++ [ris]), false)
           | Some (rds, delta) => ((record_result eps it o ris rds delta (fst s), snd s), first)
           end)
       (None, [])).

(** Marking the combinations without improvement, lines 187-190. *)
Definition mark (st : lstate) (op : nat) (noimp : list (list nat)) : lstate :=
  mkst (st_rds st) (st_idxs st) (st_opt st ++ map (fun ris => (ris, op)) noimp)
       (st_c2o st ++ flat_map (fun ris => map (fun ri => (ri, ris)) ris) noimp).

(** Applying one changed route, lines 202-212 (the same at 245-254). *)
Definition apply_one (st : lstate) (p : nat * routedata) : lstate :=
  let '(ri, new_rd) := p in
  let stale := map snd (filter (fun q => Nat.eqb ri (fst q)) (st_c2o st)) in
  mkst (set_nth ri new_rd (st_rds st))
       (if (length (rd_route new_rd) <=? 2)%nat then remove_first ri (st_idxs st) else st_idxs st)
       (filter (fun q => negb (existsb (natlist_eqb (fst q)) stale)) (st_opt st))
       (st_c2o st).
Definition apply_result (st : lstate) (prs : pairs) : lstate := fold_left apply_one prs st.

(** The loop over the operators, lines 97-239.  [todo] is ls_ops[ls_op_idx:].
    Result: state, improving_iteration, best_iteration_result with its delta.
    [None]: out of fuel. *)
Fixpoint ops_loop (eps : Z) (it : iter_opt) (sem : nat -> ls_op) (first : bool) (fuel : nat)
         (todo : list nat) (st : lstate) (improving : bool) (best_it : option (pairs * Z))
  : option (lstate * bool * option (pairs * Z)) :=
  match todo with
  | [] => Some (st, improving, best_it)
  | op :: rest =>
      match fuel with
      | O => None
      | S fuel' =>
          let '(best, noimp) := search_op eps it sem first st op in
          let st1 := mark st op noimp in
          match best with
          | None => ops_loop eps it sem first fuel' rest st1 improving best_it
          | Some (prs, delta) =>
              match it with
              | IterBest =>
                  let better := match best_it with
                                | None => true
                                | Some (_, bd) => delta + eps <? bd
                                end in
                  ops_loop eps it sem first fuel' rest st1 improving
                           (if better then Some (prs, delta) else best_it)
              | IterFirst => Some (apply_result st1 prs, true, best_it)
              | IterRepeated => ops_loop eps it sem first fuel' (op :: rest) (apply_result st1 prs) true best_it
              | IterAll => ops_loop eps it sem first fuel' rest (apply_result st1 prs) true best_it
              end
          end
      end
  end.

(** The iterations, lines 90-265.  [max_iterations] 0 or None: no limit. *)
Fixpoint iter_loop (eps : Z) (it : iter_opt) (sem : nat -> ls_op) (first : bool) (ls_ops : list nat)
         (max_iterations : option nat) (fuel : nat) (iteration : nat) (st : lstate)
  : option lstate :=
  match fuel with
  | O => None
  | S fuel' =>
      match ops_loop eps it sem first fuel' ls_ops st false None with
      | None => None
      | Some (st1, improving1, best_it) =>
          let '(st2, improving) :=
            match it, best_it with
            | IterBest, Some (prs, _) => (apply_result st1 prs, true)
            | _, _ => (st1, improving1)
            end in
          let stop := match max_iterations with
                      | Some (S m) => (S m <=? S iteration)%nat
                      | _ => false
                      end in
          if stop then Some st2
          else if improving then iter_loop eps it sem first ls_ops max_iterations fuel' (S iteration) st2
          else Some st2
      end
  end.

(** do_local_search, lines 43-273; [None]: out of fuel. *)
Definition do_local_search (eps : Z) (sem : nat -> ls_op) (ls_ops : list nat) (sol : list nat)
           (D : matrix) (d : demands) (first : bool) (it : iter_opt) (max_iterations : option nat)
           (fuel : nat) : option (list nat) :=
  let rds := from_solution sol D d in
  match iter_loop eps it sem first ls_ops max_iterations fuel 0 (mkst rds (seq 0 (length rds)) [] []) with
  | Some st => Some (to_solution (st_rds st))
  | None => None
  end.

(** The operators of the library as operators of the driver.  Two-route operators get exactly
    two routes, the chain move three; the driver calls them without best_delta, and
    redistribute with a single receiving route and recombination_level 0. *)
Definition op_2opt eps D := Op1 (fun r first => do_2opt_move eps r D first None).
Definition op_3opt eps D := Op1 (fun r first => do_3opt_move eps r D first None).
Definition op_relocate eps D := Op1 (fun r first => do_relocate_move eps r D first None).
Definition op_exchange eps D := Op1 (fun r first => do_exchange_move eps r D first None).
Definition on_two (f : routedata -> routedata -> option (list routedata * Z)) (rds : list routedata)
  : option (list routedata * Z) := match rds with [a; b] => f a b | _ => None end.
Definition on_three (f : routedata -> routedata -> routedata -> option (list routedata * Z)) (rds : list routedata)
  : option (list routedata * Z) := match rds with [a; b; c] => f a b c | _ => None end.
Definition op_2optstar eps D d C L :=
  OpK 2 false (fun rds first => on_two (fun a b => do_2optstar_move eps a b D d C L first None) rds).
Definition op_1point eps D d C L :=
  OpK 2 true (fun rds first => on_two (fun a b => do_1point_move eps a b D d C L first None) rds).
Definition op_2point eps D d C L :=
  OpK 2 false (fun rds first => on_two (fun a b => do_2point_move eps a b D d C L first None) rds).
Definition op_insert eps D d C L :=
  OpK 2 true (fun rds first => on_two (fun a b => do_insert_route eps a b D d C L first None) rds).
Definition op_redistribute eps D d C L :=
  OpK 2 true (fun rds first => on_two (fun a b => do_redistribute_move eps a [b] D d C L first None 0) rds).
Definition op_chain eps D d C L :=
  OpK 3 true (fun rds first => on_three (fun a b c => do_chain_move eps a b c D d C L first None) rds).

(** The whole operator library, numbered. *)
Definition library (eps : Z) (D : matrix) (d : demands) (C L : limit) (op : nat) : ls_op :=
  match op with
  | 0 => op_2opt eps D
  | 1 => op_3opt eps D
  | 2 => op_relocate eps D
  | 3 => op_exchange eps D
  | 4 => op_1point eps D d C L
  | 5 => op_2point eps D d C L
  | 6 => op_chain eps D d C L
  | 7 => op_2optstar eps D d C L
  | 8 => op_redistribute eps D d C L
  | _ => op_insert eps D d C L
  end%nat.
