(** * Model of verypy/classic_heuristics/petalvrp.py

    The sweep is given as the list of its nodes in the order of their angles (sweep.py:35-69 is not modelled).
    Demands are given.  The integer program solver is a parameter.  Interrupts are those reported by it.
    Logging and debug assertions are left out.  One tolerance stands for C_EPS and S_EPS (config.py: both 1e-10). *)
From Verif Require Import Spec PyBase M_util M_routedata M_inter M_psavings M_ssavings M_savfam M_sweep.

(** PetalSet, line 281: a route with its cost.  The third list, the node sets, are the nodes of the routes
    but the depot (update_node_set, lines 305 and 971). *)
Record petal := mkpt { pt_route : list nat; pt_cost : Z }.
Definition pt_nodes (p : petal) : list nat := filter (fun n => negb (Nat.eqb n 0)) (pt_route p).
Definition pt_routes (ps : list petal) : list (list nat) := map pt_route ps.

(** [tuple in set] *)
Definition seen_in (r : list nat) (l : list (list nat)) : bool := existsb (fun s => if list_eq_dec Nat.eq_dec r s then true else false) l.
Definition seen_inZ (r : list Z) (l : list (list Z)) : bool := existsb (fun s => if list_eq_dec Z.eq_dec r s then true else false) l.

(** ** _generate_overconstrained_petals, lines 282-355 *)

(** The set a petal of this demand belongs to, lines 312-335.  [ratio] is restricted_route_ratio as a fraction. *)
Inductive ptl_set := Restricted | Reduced | Extended.
Definition classify (eps : Z) (ratio : option (Z * Z)) (C : limit) (C_t dem : Z) : ptl_set :=
  let rest := if C_t <=? dem + eps then Reduced else Extended in
  match ratio, truthy C with
  | Some (num, den), Some c => if num * c <=? den * (dem + eps) then Restricted else rest
  | _, _ => rest
  end.

(** gen_ptls and the three sets *)
Record generated := mkgen { gn_seen : list (list nat); gn_restricted : list petal; gn_reduced : list petal; gn_extended : list petal }.
(** Lines 304-336: one route of the sweep.  The flags generate_... are True. *)
Definition gen_store (eps : Z) (ratio : option (Z * Z)) (C : limit) (C_t : Z) (g : generated) (rd : swroute) : generated :=
  let r := rd_normalize (sr_route rd) in
  if seen_in r (gn_seen g) then g
  else
    let p := mkpt r (sr_cost rd) in
    match classify eps ratio C C_t (sr_demand rd) with
    | Restricted => mkgen (gn_seen g ++ [r]) (gn_restricted g ++ [p]) (gn_reduced g) (gn_extended g)
    | Reduced => mkgen (gn_seen g ++ [r]) (gn_restricted g) (gn_reduced g ++ [p]) (gn_extended g)
    | Extended => mkgen (gn_seen g ++ [r]) (gn_restricted g) (gn_reduced g) (gn_extended g ++ [p])
    end.
(** Lines 297-340; [None]: a sweep is out of fuel.  Line 278: direction 1 only. *)
Fixpoint gen_starts (eps : Z) (ratio : option (Z * Z)) (C_t : Z) (D : matrix) (d : demands) (C L : limit) (f : routing) (order : list nat)
         (fuel : nat) (starts : list nat) (g : generated) : option generated :=
  match starts with
  | [] => Some g
  | s :: rest =>
      match do_one_sweep eps eps D d C L f order true true s fuel with
      | Some (Some rds) => gen_starts eps ratio C_t D d C L f order fuel rest (fold_left (gen_store eps ratio C C_t) rds g)
      | _ => None
      end
  end.
Definition generate_petals eps ratio C_t (N : nat) D d C L f order fuel : option generated :=
  gen_starts eps ratio C_t D d C L f order fuel (range 0 (N - 1)) (mkgen [] [] [] []).

(** ** The set covering problem *)

(** The integer program of lines 445-487: the node sets, the costs, the forbidden combinations and K *)
Record scp := mkscp { scp_sets : list (list nat); scp_costs : list Z; scp_forbid : list (list nat); scp_K : option Z }.
Definition bz (b : bool) : Z := if b then 1 else 0.
Definition scp_vars (p : scp) : list nat := range 0 (length (scp_sets p)).
(** c1, lines 379-385 *)
Definition c1 (N : nat) (p : scp) (x : list bool) : bool :=
  forallb (fun i => sumZ (map (fun j => if mem i (nth j (scp_sets p) []) then bz (nth j x false) else 0) (scp_vars p)) =? 1) (range 1 N).
(** c2, lines 388-395 *)
Definition c2 (p : scp) (x : list bool) : bool :=
  forallb (fun fc => sumZ (map (fun j => if mem j fc then bz (nth j x false) else - bz (nth j x false)) (scp_vars p)) <=? Z.of_nat (length fc) - 1) (scp_forbid p).
(** c3, lines 397-402, with [quicksum] of a tupledict, which may sum its keys or its variables: a parameter *)
Definition c3 (quicksum : list bool -> Z) (p : scp) (x : list bool) : bool :=
  match scp_K p with Some K => quicksum x <=? K | None => true end.
Definition satisfies (quicksum : list bool -> Z) (N : nat) (p : scp) (x : list bool) : bool :=
  Nat.eqb (length x) (length (scp_sets p)) && c1 N p x && c2 p x && c3 quicksum p x.
(** The objective, lines 480 and 488 *)
Definition objective (p : scp) (x : list bool) : Z := sumZ (map (fun j => bz (nth j x false) * nth j (scp_costs p) 0) (scp_vars p)).

(** m.Status with m.X *)
Inductive status := Optimal (x : list bool) | TimeLimit | Interrupted | Infeasible | OtherStatus.

(** _decision_variables_to_petals, lines 357-375 *)
Definition decision_petals (x : list bool) (active relaxed : list petal) : list (list nat * Z) :=
  flat_map (fun j =>
    if nth j x false
    then [if (j <? length active)%nat then (nth j (pt_routes active) [], Z.of_nat j)
          else (nth (j - length active) (pt_routes relaxed) [], - Z.of_nat (j - length active) - 1)]
    else []) (range 0 (length active + length relaxed)).

(** Lines 455-459 *)
Definition current_combos (nactive : nat) (forbidden : list (list Z)) : list (list nat) :=
  flat_map (fun fc =>
    if forallb (fun i => i <? Z.of_nat nactive) fc
    then [map (fun i => if 0 <=? i then Z.to_nat i else (Z.to_nat (- i - 1) + nactive)%nat) fc]
    else []) forbidden.

(** The answer, with [] for None, or an exception *)
Inductive scres := Answer (l : list (list nat * Z)) (feasible : bool) | GurobiTimeout | SolverInterrupt.

Section Petal.
Variable eps : Z.
(** m.optimize() of lines 487-513, and of the relaxed model, lines 410-432 *)
Variables gurobi feas_relax : scp -> status.

(** _solve_set_covering with _relax_customer_constraints_with_feasRelax, lines 407-513 *)
Definition solve_set_covering (active relaxed : list petal) (forbidden : list (list Z)) (allow_infeasible : bool) (K : option Z) : scres :=
  let p := mkscp (map pt_nodes active ++ map pt_nodes relaxed) (map pt_cost active ++ map pt_cost relaxed)
                 (current_combos (length active) forbidden) (truthy K) in
  match gurobi p with
  | Optimal x => Answer (decision_petals x active relaxed) true
  | TimeLimit => GurobiTimeout
  | Interrupted => SolverInterrupt
  | Infeasible =>
      if allow_infeasible
      then match feas_relax p with
           | Optimal x => Answer (decision_petals x active relaxed) false
           | TimeLimit => GurobiTimeout
           | Interrupted => SolverInterrupt
           | _ => Answer [] false
           end
      else Answer [] false
  | OtherStatus => Answer [] false
  end.

(** ** _remove_multiserved, lines 538-579 *)

(** Lines 544-551: the visits of node n as (route, position) *)
Definition visits (routes : list (list nat)) (n : nat) : list (nat * nat) :=
  flat_map (fun ri => map (pair ri) (filter (fun ni => Nat.eqb (at_ (nth ri routes []) ni) n) (range 0 (length (nth ri routes [])))))
           (range 0 (length routes)).
(** The nodes visited a second time, in that order *)
Fixpoint twice (seen : list nat) (l : list nat) : list nat :=
  match l with
  | [] => []
  | n :: rest => if Nat.eqb n 0 then twice seen rest
                 else if Nat.eqb (count_occ Nat.eq_dec seen n) 1 then n :: twice (seen ++ [n]) rest
                 else twice (seen ++ [n]) rest
  end.
(** Lines 556-565 *)
Definition visit_delta (D : matrix) (routes : list (list nat)) (p : nat * nat) : Z :=
  let r := nth (fst p) routes [] in
  let nfrom := at_ r (snd p - 1) in let nvia := at_ r (snd p) in let nto := at_ r (snd p + 1) in
  D nfrom nto - D nfrom nvia - D nvia nto.
Definition keep_visit (D : matrix) (routes : list (list nat)) (sl : list (nat * nat)) : option (nat * nat) :=
  option_map snd (fold_left (fun best p =>
    let delta := visit_delta D routes p in
    match best with Some (b, _) => if b <? delta then Some (delta, p) else best | None => Some (delta, p) end) sl None).
(** Line 572 *)
Definition del_visit (routes : list (list nat)) (p : nat * nat) : list (list nat) :=
  firstn (fst p) routes ++ (firstn (snd p) (nth (fst p) routes []) ++ skipn (snd p + 1) (nth (fst p) routes [])) :: skipn (fst p + 1) routes.
(** Lines 575-578 *)
Definition shift_visit (p q : nat * nat) : nat * nat :=
  if Nat.eqb (fst q) (fst p) && (snd p <? snd q)%nat then (fst q, snd q - 1)%nat else q.
(** Lines 566-578 for one node *)
Definition drop_visits (keep : nat * nat) (sl : list (nat * nat)) (s : list (list nat) * list (list (nat * nat))) : list (list nat) * list (list (nat * nat)) :=
  fold_left (fun s p =>
    if Nat.eqb (fst keep) (fst p) && Nat.eqb (snd keep) (snd p) then s
    else (del_visit (fst s) p, map (map (shift_visit p)) (snd s))) sl s.
(** Lines 553-579; [k]: the number of nodes left to do *)
Fixpoint drop_extra (D : matrix) (k : nat) (routes : list (list nat)) (todo : list (list (nat * nat))) : list (list nat) :=
  match k, todo with
  | S k', sl :: rest =>
      match keep_visit D routes sl with
      | Some keep => let '(routes', rest') := drop_visits keep sl (routes, rest) in drop_extra D k' routes' rest'
      | None => drop_extra D k' routes rest
      end
  | _, _ => routes
  end.
Definition remove_multiserved (N : nat) (D : matrix) (routes : list (list nat)) : list (list nat) * bool :=
  let nodes := filter (fun n => negb (Nat.eqb n 0)) (concat routes) in
  let todo := map (visits routes) (twice [] (concat routes)) in
  (drop_extra D (length todo) routes todo, Nat.eqb (S (length (nodup Nat.eq_dec nodes))) N).

(** ** Relaxed petals *)

(** Lines 119-135: the length of a route and the cheapest place for a node, as (delta, j) *)
Definition cheapest (D : matrix) (n : nat) (route : list nat) : Z * option (Z * nat) :=
  fold_left (fun s j =>
    let a := at_ route (j - 1) in let b := at_ route j in
    let delta := D a n + D n b - D a b in
    (fst s + D a b, match snd s with Some (bd, _) => if delta <? bd then Some (delta, j) else snd s | None => Some (delta, j) end))
    (range 1 (length route)) (0, None).

Definition insert_at (j n : nat) (route : list nat) : list nat := firstn j route ++ n :: skipn j route.

Section Regain.
Variable D : matrix.
Variable d : demands.
Variables C L : limit.
(** The arguments of _regain_feasibility, lines 80-82: the node moved, both changes, route 2 and the other
    routes that have room, the limit on discarded nodes, and what is in excess *)
Variable to_move : nat.
Variables r1_delta r2_delta : Z.
Variable rd2 : routedata.
Variable receiving : list routedata.
Variable discard : option nat.
Variables d_excess l_excess : option Z.
Notation route2 := (rd_route rd2).

(** One round of lines 118-184 and all rounds for the combinations that extend this one.  They are on top of
    the stack, so they are popped before the others; [fuel] is the number of nodes left in route 2. *)
Fixpoint regain (fuel i : nat) (rm : list nat) (rmd : Z) : list routedata :=
  let left2 := filter (fun n => negb (mem n rm)) route2 in
  match cheapest D to_move left2 with
  | (new_l, Some (new_delta, j)) =>
      let rml := (rd_cost rd2 + r2_delta) - (new_l + new_delta) in
      if match truthy d_excess with Some x => x <=? rmd + eps | None => true end &&
         match truthy l_excess with Some x => x <=? rml + eps | None => true end
      then
        let slack := - (r1_delta + new_delta) in
        if slack + eps <? 0 then []
        else
          let r := 0%nat :: rm ++ [0%nat] in
          match do_redistribute_move eps (mkrd r (objf r D) (Some (totald r d))) receiving D d C L false (Some slack) 0 with
          | Some (rds, _) => mkrd (insert_at j to_move left2) (new_l + new_delta) (Some (odem rd2 - rmd + d to_move)) :: tl rds
          | None => []
          end
      else
        match fuel with
        | O => []
        | S fuel' =>
            if match discard with Some (S m) => (length rm <? S m)%nat | _ => true end
            then flat_map (fun k => regain fuel' k (rm ++ [at_ route2 k]) (rmd + d (at_ route2 k))) (rev (range (i + 1) (length route2 - 1)))
            else []
        end
  | (_, None) => []
  end.
(** Lines 112-116 *)
Definition regain_all : list routedata :=
  flat_map (fun k => regain (length route2) k [at_ route2 k] (d (at_ route2 k))) (rev (range 1 (length route2 - 1))).
End Regain.

(** routes_with_slack, lines 105-110 *)
Definition with_slack (d : demands) (C : limit) (rds : list routedata) (ri1 ri2 : nat) (rd1 : routedata) : list routedata :=
  let rd2 := nth ri2 rds empty_rd in
  let min_d := match map d (slice 1 (length (rd_route rd2) - 1) (rd_route rd2)) with [] => 0 | x :: t => fold_left Z.min t x end in
  flat_map (fun ri => if negb (Nat.eqb ri ri1) && negb (Nat.eqb ri ri2) &&
                         match truthy C with Some c => min_d <? c - odem (nth ri rds empty_rd) + eps | None => true end
                      then [nth ri rds empty_rd] else []) (range 0 (length rds)) ++ [rd1; empty_rd].

(** Lines 210-276: one customer, at position i of route ri1, moved to route ri2 *)
Definition relax_move (D : matrix) (d : demands) (C L : limit) (discard : option nat) (rds : list routedata) (ri1 i ri2 : nat) : list routedata :=
  let rd1 := nth ri1 rds empty_rd in let rd2 := nth ri2 rds empty_rd in
  let a := at_ (rd_route rd1) (i - 1) in let n := at_ (rd_route rd1) i in let b := at_ (rd_route rd1) (i + 1) in
  let r1_delta := D a b - D a n - D n b in
  match snd (cheapest D n (rd_route rd2)) with
  | None => []
  | Some (r2_delta, j) =>
      if r1_delta + r2_delta <? - eps then
        let d_excess := match truthy C with Some c => if c <? odem rd2 + d n - eps then Some (odem rd2 + d n - c) else None | None => None end in
        let l_excess := match truthy L with Some l => if l <? rd_cost rd2 + r2_delta - eps then Some (rd_cost rd2 + r2_delta - l) else None | None => None end in
        let new_rd1 := mkrd (firstn i (rd_route rd1) ++ skipn (i + 1) (rd_route rd1)) (rd_cost rd1 + r1_delta) (Some (odem rd1 - d n)) in
        let new_rd2 := mkrd (insert_at j n (rd_route rd2)) (rd_cost rd2 + r2_delta) (Some (odem rd2 + d n)) in
        match truthy d_excess, truthy l_excess with
        | None, None => [new_rd1; new_rd2]
        | _, _ => regain_all D d C L n r1_delta r2_delta rd2 (with_slack d C rds ri1 ri2 new_rd1) discard d_excess l_excess
        end
      else []
  end.
(** _generate_solution_relaxation_petals, lines 189-279 *)
Definition relaxations (D : matrix) (d : demands) (C L : limit) (discard : option nat) (routes : list (list nat)) : list routedata :=
  let rds := from_routes routes D d in
  flat_map (fun ri1 =>
    flat_map (fun i =>
      flat_map (fun ri2 => if Nat.eqb ri1 ri2 then [] else relax_move D d C L discard rds ri1 i ri2) (range 0 (length rds)))
      (range 1 (length (rd_route (nth ri1 rds empty_rd)) - 1)))
    (range 0 (length rds)).

(** can_discard_multiple_customers, lines 670-682: [Discard None] is True, [Discard (Some 1)] is False *)
Inductive discarding := Discard (m : option nat) | Auto.
(** Lines 950-957, with AUTO_DISCARD_LIMITS of line 67 *)
Definition discard_at_most (c : discarding) (routes : list (list nat)) : option nat :=
  match c with
  | Discard m => m
  | Auto => let longest := (fold_left Nat.max (map (@length nat) routes) 0 - 2)%nat in
            fold_left (fun acc ls => if (fst ls <? longest)%nat then Some (snd ls) else acc) [(10, 5); (20, 3); (30, 2); (50, 1)]%nat None
  end.

(** ** petal_init, lines 581-991 *)
Section Init.
Variable N : nat.
Variable D : matrix.
Variable d : demands.
Variables C L : limit.
Variable minimize_K : bool.
(** K as given *)
Variable K : option Z.
Variable relaxe : bool.
Variables required min_iter : option nat.
Variable discarding_opt : discarding.
(** ALWAYS_USE_ALL_PETALS_LIMIT, line 73 *)
Variable all_limit : nat.
(** The three sets *)
Variables restricted reduced extended : list petal.

(** The variables that live from round to round, lines 711-740; [best_f = None] is infinity *)
Record ptst := mkpst { ps_set : ptl_set; ps_max : ptl_set; ps_seen : list (list nat); ps_relaxed : list petal;
                       ps_forbidden : list (list Z); ps_best : option (list nat); ps_f : option Z; ps_bK : nat; ps_feas : bool;
                       ps_allow : bool; ps_K : option Z; ps_iter : nat; ps_cnt : nat }.
Definition set_num (s : ptl_set) : nat := match s with Restricted => 1 | Reduced => 2 | Extended => 3 end.
Definition set_max (a b : ptl_set) : ptl_set := if (set_num a <? set_num b)%nat then b else a.
Definition active_of (s : ptl_set) : list petal :=
  match s with Restricted => restricted | Reduced => restricted ++ reduced | Extended => restricted ++ reduced ++ extended end.

(** What the set covering phase leaves: routes_with_idxs, sol_feasible, ptl_set, seen_ptls, max_ptl_set_used
    and interrupted *)
Record phase := mkph { ph_routes : list (list nat * Z); ph_feas : bool; ph_set : ptl_set; ph_seen : list (list nat);
                       ph_max : ptl_set; ph_int : bool }.

(** Lines 804-832: the third part.  [r], [fe]: what the earlier parts found.  [None]: GurobiError *)
Definition phase3 (st : ptst) (r : list (list nat * Z)) (fe : bool) (s : ptl_set) (seen : list (list nat)) : option phase :=
  if (match r with [] => true | _ => false end) || match truthy K with Some k => k <? 2 | None => false end ||
     match s with Extended => true | _ => false end
  then
    let seen' := seen ++ pt_routes extended in
    match solve_set_covering (active_of Extended) (ps_relaxed st) (ps_forbidden st) (ps_allow st) (ps_K st) with
    | Answer l fe' => Some (mkph l fe' Extended seen' (set_max (ps_max st) Extended) false)
    | GurobiTimeout => None
    | SolverInterrupt => Some (mkph r fe Extended seen' (ps_max st) true)
    end
  else Some (mkph r fe s seen (set_max (ps_max st) s) false).
(** Lines 775-798: the second part *)
Definition phase2 (st : ptst) (r : list (list nat * Z)) (fe : bool) (seen : list (list nat)) : option phase :=
  if match ps_set st with Restricted => match r with [] => true | _ => false end | Reduced => true | Extended => false end
  then
    let seen' := seen ++ pt_routes reduced in
    match solve_set_covering (active_of Reduced) (ps_relaxed st) (ps_forbidden st) (ps_allow st) (ps_K st) with
    | Answer l fe' => phase3 st l fe' Reduced seen'
    | GurobiTimeout => None
    | SolverInterrupt => Some (mkph r fe Reduced seen' (ps_max st) true)
    end
  else phase3 st r fe (ps_set st) seen.
(** Lines 746-773 *)
Definition phase1 (st : ptst) : option phase :=
  match ps_set st, restricted with
  | Restricted, _ :: _ =>
      let seen' := ps_seen st ++ pt_routes restricted in
      match solve_set_covering restricted (ps_relaxed st) (ps_forbidden st) (ps_allow st) (ps_K st) with
      | Answer l fe' => phase2 st l fe' seen'
      | GurobiTimeout => None
      | SolverInterrupt => Some (mkph [] false Restricted seen' (ps_max st) true)
      end
  | _, _ => phase2 st [] false (ps_seen st)
  end.

Inductive ptout := PtReturn (sol : option (list nat)) | PtInterrupt (sol : option (list nat)) | PtGurobiError.

(** better_or_same, lines 897-900, with best_sol_f possibly infinite *)
Definition better_or_same (st : ptst) (f : Z) (k : nat) : bool :=
  match ps_f st with
  | None => if minimize_K then (k <=? ps_bK st)%nat else true
  | Some bf => is_better_sol (Some bf) (Some (ps_bK st)) (Some f) (Some k) minimize_K || (Nat.eqb k (ps_bK st) && (f =? bf))
  end.

(** Lines 969-981: the petals that are new, with seen_ptls and ptl_cnt *)
Definition add_relaxed (s : list (list nat) * list petal * nat) (rd : routedata) : list (list nat) * list petal * nat :=
  let '(seen, relaxed, cnt) := s in
  let r := rd_normalize (rd_route rd) in
  if (2 <? length r)%nat && negb (seen_in r seen) then (seen ++ [r], relaxed ++ [mkpt r (rd_cost rd)], S cnt) else s.

(** One round, lines 742-981.  [inr]: the loop is left. *)
Definition petal_iter (st : ptst) : ptst + ptout :=
  let iter := S (ps_iter st) in
  match phase1 st with
  | None => inr PtGurobiError
  | Some ph =>
      let chosen := map fst (ph_routes ph) in
      let idx := map snd (ph_routes ph) in
      let found := match ph_routes ph with [] => false | _ => negb (seen_inZ idx (ps_forbidden st)) end in
      if found then
        (* 854-865 *)
        let '(routes, feas, allow) :=
          if negb (ph_feas ph) && negb (ph_int ph)
          then let '(rs, ok) := remove_multiserved N D chosen in (rs, ok, ps_allow st)
          else (chosen, ph_feas ph, false) in
        (* 876-907 *)
        let sol := match routes2sol (map Some routes) with Some s => s | None => [] end in
        let f := objf sol D in
        let k := (count_occ Nat.eq_dec sol 0%nat - 1)%nat in
        let forbidden := ps_forbidden st ++ [idx] in
        let bos := better_or_same st f k in
        let accept := if ps_feas st then feas && bos else feas || bos in
        let below_min := match min_iter with Some m => (iter <? m)%nat | None => false end in
        let is_reduced := match ph_set ph with Reduced => true | _ => false end in
        (* 908-935: ptl_set, K_constraint, and whether the search is given up *)
        let '(set', K', stop) :=
          if accept then (ph_set ph, ps_K st, false)
          else match ph_set ph with
               | Restricted => (Reduced, ps_K st, false)
               | _ =>
                   if ((negb (ps_feas st) || (ps_cnt st <=? all_limit)%nat) && is_reduced) || (set_num (ph_set ph) <? set_num (ph_max ph))%nat
                   then (Extended, ps_K st, false)
                   else match truthy (ps_K st) with
                        | Some kc => if negb (ps_feas st) then (Restricted, Some (kc + 1), false)
                                     else (ph_set ph, ps_K st, negb below_min && match required with None => true | Some _ => false end)
                        | None => (ph_set ph, ps_K st, negb below_min && match required with None => true | Some _ => false end)
                        end
               end in
        let '(best, bf, bK, bfeas) := if accept then (Some sol, Some f, k, feas) else (ps_best st, ps_f st, ps_bK st, ps_feas st) in
        let finished := stop || (match required with Some (S m) => (S m <=? iter)%nat | _ => false end && negb below_min) in
        if finished || ph_int ph then inr (if ph_int ph then PtInterrupt best else PtReturn best)
        else
          (* 945-981 *)
          let '(seen, relaxed, cnt) :=
            if relaxe then fold_left add_relaxed (relaxations D d C L (discard_at_most discarding_opt routes) routes) (ph_seen ph, ps_relaxed st, ps_cnt st)
            else (ph_seen ph, ps_relaxed st, ps_cnt st) in
          inl (mkpst set' (ph_max ph) seen relaxed forbidden best bf bK bfeas allow K' iter cnt)
      else
        (* 866-874 *)
        let next := fun s K' => if ph_int ph then inr (PtInterrupt (ps_best st))
                                else inl (mkpst s (ph_max ph) (ph_seen ph) (ps_relaxed st) (ps_forbidden st) (ps_best st) (ps_f st) (ps_bK st)
                                                (ps_feas st) (ps_allow st) K' iter (ps_cnt st)) in
        match ph_set ph with
        | Restricted => next Reduced (ps_K st)
        | Reduced => next Extended (ps_K st)
        | Extended => match truthy (ps_K st) with
                      | Some kc => next Restricted (Some (kc + 1))
                      | None => inr (PtReturn (ps_best st))
                      end
        end
  end.

(** The loop, lines 741-988, with the number of petals when it is left *)
Fixpoint petal_loop (fuel : nat) (st : ptst) : option (ptout * nat) :=
  match fuel with
  | O => None
  | S fuel' => match petal_iter st with
               | inl st' => petal_loop fuel' st'
               | inr out => Some (out, ps_cnt st)
               end
  end.
Definition petal_start (K_constraint : option Z) (allow : bool) : ptst :=
  mkpst Restricted Restricted [] [] [] None None N false allow K_constraint 0 (length restricted + length reduced + length extended).
End Init.

(** petal_init, lines 581-991.  [v] is the number of vehicles of line 694, in floating point there. *)
Definition petal_init (N : nat) (D : matrix) (d : demands) (C L : limit) (f : routing) (order : list nat) (K : option Z) (minimize_K relaxe : bool)
    (required min_iter : option nat) (ratio : option (Z * Z)) (allow : bool) (disc : discarding) (v : Z) (fuel : nat) : option (ptout * nat) :=
  let d_tot := sumZ (map d (range 0 N)) in
  let lower := match truthy C with Some _ => v | None => 1 end in
  let K_constraint := match truthy K with None => if minimize_K then Some lower else K | Some _ => K end in
  let C_t := match truthy C with
             | Some c => match truthy K with Some k => d_tot - (k - 1) * c | None => d_tot - (v - 1) * c end
             | None => 0
             end in
  match generate_petals eps ratio C_t N D d C L f order fuel with
  | None => None
  | Some g =>
      petal_loop N D d C L minimize_K K relaxe required min_iter disc (100 * 100)%nat (gn_restricted g) (gn_reduced g) (gn_extended g)
        fuel (petal_start N (gn_restricted g) (gn_reduced g) (gn_extended g) K_constraint allow)
  end.
End Petal.
