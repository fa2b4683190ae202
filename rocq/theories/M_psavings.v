(** * Model of verypy/classic_heuristics/parallel_savings.py

    Logging (the [__debug__] blocks) is left out.  An interrupt is a KeyboardInterrupt that
    Python delivers between two statements; [list.reverse], [list.extend], item assignment and
    [routes2sol] are taken as atomic.  Every statement of the merge step that changes something
    is therefore a point ([ppoint]) with the state reached there. *)
From Verif Require Import Spec PyBase M_util.

(** (saving, secondary criterion, i, j) *)
Definition saving := (Z * Z * nat * nat)%type.

(** Python's [<=] on these tuples *)
Definition saving_leb (a b : saving) : bool :=
  let '(s1, x1, i1, j1) := a in
  let '(s2, x2, i2, j2) := b in
  if negb (s1 =? s2) then s1 <? s2
  else if negb (x1 =? x2) then x1 <? x2
  else if negb (Nat.eqb i1 i2) then Nat.ltb i1 i2
  else Nat.leb j1 j2.

(** [savings.sort(reverse=True)], as insertion sort *)
Fixpoint sort_insert (x : saving) (l : list saving) : list saving :=
  match l with
  | [] => [x]
  | y :: t => if saving_leb y x then x :: y :: t else y :: sort_insert x t
  end.
Fixpoint sort_reverse (l : list saving) : list saving :=
  match l with [] => [] | x :: t => sort_insert x (sort_reverse t) end.

(** clarke_wright_savings_function, lines 35-46.  The preallocated list is filled in order. *)
Definition clarke_wright_savings (N : nat) (D : matrix) : list saving :=
  sort_reverse (flat_map (fun i => map (fun j => (D i 0%nat + D 0%nat j - D i j, - D i j, i, j)) (range (i + 1) N))
                         (range 1 N)).

Inductive ppoint :=
| At_start      (* 94-103: before and while the savings are computed *)
| Set_demand    (* after route_demands[left_route] = merged_demand, line 152 *)
| Set_cost      (* after route_costs[left_route] = merged_cost, line 153 *)
| Rev_left      (* after routes[left_route].reverse(), lines 157-158 *)
| Rev_right     (* after routes[right_route].reverse(), lines 159-160 *)
| End_left      (* after line 164 *)
| End_right     (* after line 166 *)
| End_far       (* after line 169 *)
| Extended      (* after routes[left_route].extend(...), line 172 *)
| Cleared.      (* after routes[right_route] = None, line 173 *)

(** routes, route_demands, route_costs, endnode_to_route *)
Record pstate := mkps { ps_routes : list (option (list nat)); ps_dem : list Z; ps_cost : list Z;
                        ps_end : list (option nat) }.

Definition is_set (C : limit) : bool := match truthy C with Some _ => true | None => false end.

(** Lines 94-103.  [d] is a list, so d[1:] is a copy. *)
Definition ps_init (N : nat) (D : matrix) (d : demands) (C L : limit) : pstate :=
  mkps (map (fun i => Some [i]) (range 1 N))
       (if is_set C then map d (range 1 N) else repeat 0 N)
       (if is_set L then map (fun i => D 0%nat i + D i 0%nat) (range 1 N) else [])
       (Some 0%nat :: map Some (range 0 (N - 1))).

(** The statements of a merge of routes[l] = lr and routes[r] = rr, lines 152-173, with the
    state after each of them. *)
Definition merge_points (C L : limit) (st : pstate) (i j l r : nat) (lr rr : list nat) (md mc : Z)
  : list (ppoint * pstate) :=
  let dem' := if is_set C then set_nth l md (ps_dem st) else ps_dem st in
  let cost' := if is_set L then set_nth l mc (ps_cost st) else ps_cost st in
  let lr' := if Nat.eqb (hd 0%nat lr) i then rev lr else lr in
  let rr' := if Nat.eqb (last rr 0%nat) j then rev rr else rr in
  let routes1 := set_nth l (Some lr') (ps_routes st) in
  let routes2 := set_nth r (Some rr') routes1 in
  let end1 := if (1 <? length lr')%nat then set_nth (last lr' 0%nat) None (ps_end st) else ps_end st in
  let end2 := if (1 <? length rr')%nat then set_nth (hd 0%nat rr') None end1 else end1 in
  let end3 := set_nth (last rr' 0%nat) (Some l) end2 in
  let routes3 := set_nth l (Some (lr' ++ rr')) routes2 in
  let routes4 := set_nth r None routes3 in
  [ (Set_demand, mkps (ps_routes st) dem' (ps_cost st) (ps_end st));
    (Set_cost, mkps (ps_routes st) dem' cost' (ps_end st));
    (Rev_left, mkps routes1 dem' cost' (ps_end st));
    (Rev_right, mkps routes2 dem' cost' (ps_end st));
    (End_left, mkps routes2 dem' cost' end1);
    (End_right, mkps routes2 dem' cost' end2);
    (End_far, mkps routes2 dem' cost' end3);
    (Extended, mkps routes3 dem' cost' end3);
    (Cleared, mkps routes4 dem' cost' end3) ].

(** One iteration, lines 108-173: the points passed, and whether the loop is left.
    [None]: an exception (index out of range, or a route that is None). *)
Definition ps_step (ceps seps : Z) (D : matrix) (C L : limit) (minimize_K : bool) (sv : saving) (st : pstate)
  : option (list (ppoint * pstate) * bool) :=
  let '(_, _, i, j) := sv in
  if negb minimize_K && (D i 0%nat + D 0%nat j - D i j <? 0) then Some ([], true)
  else
    match nth_error (ps_end st) i, nth_error (ps_end st) j with
    | Some (Some l), Some (Some r) =>
        if Nat.eqb l r then Some ([], false)
        else
          let md := nth l (ps_dem st) 0 + nth r (ps_dem st) 0 in
          let mc := nth l (ps_cost st) 0 - D 0%nat i + nth r (ps_cost st) 0 - D 0%nat j + D i j in
          if exceeds C ceps md then Some ([], false)
          else if exceeds L seps mc then Some ([], false)
          else
            match nth l (ps_routes st) None, nth r (ps_routes st) None with
            | Some lr, Some rr => Some (merge_points C L st i j l r lr rr md mc, false)
            | _, _ => None
            end
    | Some _, Some _ => Some ([], false)
    | _, _ => None
    end.

Definition last_state (pts : list (ppoint * pstate)) (st : pstate) : pstate := last (map snd pts) st.

(** The loop over the savings, lines 108-173: all points passed. *)
Fixpoint ps_loop (ceps seps : Z) (D : matrix) (C L : limit) (minimize_K : bool) (savings : list saving) (st : pstate)
  : option (list (ppoint * pstate)) :=
  match savings with
  | [] => Some []
  | sv :: t =>
      match ps_step ceps seps D C L minimize_K sv st with
      | None => None
      | Some (pts, true) => Some pts
      | Some (pts, false) =>
          match ps_loop ceps seps D C L minimize_K t (last_state pts st) with
          | None => None
          | Some pts' => Some (pts ++ pts')
          end
      end
  end.

(** All points of a run, in order. *)
Definition ps_points ceps seps (N : nat) D d C L minimize_K (savings : list saving) : option (list (ppoint * pstate)) :=
  let st := ps_init N D d C L in
  match ps_loop ceps seps D C L minimize_K savings st with
  | None => None
  | Some pts => Some ((At_start, st) :: pts)
  end.

(** parallel_savings_init, lines 48-183; [savings] is the list returned by savings_callback(D).
    The outer [None] is an exception; the inner one is routes2sol's None for no routes. *)
Definition parallel_savings_init ceps seps N D d C L minimize_K savings : option (option (list nat)) :=
  match ps_points ceps seps N D d C L minimize_K savings with
  | None => None
  | Some pts => Some (routes2sol (ps_routes (last_state pts (ps_init N D d C L))))
  end.

(** The solution attached to the KeyboardInterrupt, lines 179-181, for an interrupt at a point. *)
Definition interrupted_sol (p : ppoint * pstate) : option (list nat) := routes2sol (ps_routes (snd p)).
