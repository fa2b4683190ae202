(** * Model of verypy/routedata.py *)
From Verif Require Import Spec PyBase M_util.

(** RouteData.__init__ (routedata.py:5-19): route, cost, demand; the node set and the
    auxiliary lists are derived from the route and modelled separately below.  The demand
    may be None: local search operators store None when no capacity is given. *)
Record routedata := mkrd { rd_route : list nat; rd_cost : Z; rd_demand : option Z }.

(** RouteData() with default arguments. *)
Definition empty_rd : routedata := mkrd [0%nat; 0%nat] 0 (Some 0).

(** is_empty, routedata.py:41-45 *)
Definition rd_is_empty (rd : routedata) : bool :=
  match rd_route rd with
  | [] => true
  | [a; b] => Nat.eqb a 0 && Nat.eqb b 0
  | _ => false
  end.

(** Cumulative lists of update_auxiliary_data, routedata.py:50-84.
    [cum_scan f prev acc l]: running sums of [f prev n] along [l]. *)
Fixpoint cum_scan (f : nat -> nat -> Z) (prev : nat) (acc : Z) (l : list nat) : list Z :=
  match l with
  | [] => []
  | n :: t => let acc' := acc + f prev n in acc' :: cum_scan f n acc' t
  end.

(** direction=1: start_i=1, slots 1..len-1 are filled, slot 0 stays 0.0. *)
Definition fwd_l (D : matrix) (route : list nat) : list Z :=
  match route with [] => [] | _ => 0 :: cum_scan D 0 0 (slice_from 1 route) end.
Definition fwd_d (d : demands) (route : list nat) : list Z :=
  match route with [] => [] | _ => 0 :: cum_scan (fun _ n => d n) 0 0 (slice_from 1 route) end.
(** direction=-1: route[-2::-1], slots len-2..0 are filled from the right, the last stays 0.0. *)
Definition rwd_l (D : matrix) (route : list nat) : list Z :=
  match route with [] => []
  | _ => rev (0 :: cum_scan D 0 0 (tl (rev route))) end.
Definition rwd_d (d : demands) (route : list nat) : list Z :=
  match route with [] => []
  | _ => rev (0 :: cum_scan (fun _ n => d n) 0 0 (tl (rev route))) end.

(** normalize, routedata.py:86-89 (routes of length >= 2). *)
Definition rd_normalize (route : list nat) : list nat :=
  if Nat.ltb (at_ route (length route - 2)) (at_ route 1) then rev route else route.

(** _route_to_nodeset, routedata.py:91-106; a set is modelled by the list of its
    members in route order.
    Line 96-97: [start_from] advances over leading depots, at most to len-1. *)
Fixpoint start_from (route : list nat) (last_i i : nat) : nat :=
  match route with
  | x :: t => if Nat.eqb x 0 && Nat.ltb i last_i then start_from t last_i (i + 1) else i
  | [] => i
  end.
(** Lines 99-101: [end_to] = -k; [fuel] bounds the loop by the length of the route. *)
Fixpoint end_to (route : list nat) (k fuel : nat) : nat :=
  match fuel with
  | O => k
  | S fuel' => if Nat.eqb (at_ route (length route - k)) 0 && Nat.ltb k (length route)
               then end_to route (k + 1) fuel' else k
  end.
Definition route_to_nodeset (route : list nat) : list nat :=
  match route with
  | [] => []
  | _ =>
    if match route with [a; b] => Nat.eqb a 0 && Nat.eqb b 0 | _ => false end then []
    else
      let sf := start_from route (length route - 1) 0 in
      if Nat.eqb (last route 0%nat) 0
      then slice sf (length route - end_to route 2 (length route) + 1) route
      else slice_from sf route
  end.

(** from_routes, routedata.py:108-117 (d given). *)
Definition from_routes (routes : list (list nat)) (D : matrix) (d : demands) : list routedata :=
  map (fun r => mkrd r (objf r D) (Some (sumZ (map d r)))) routes.

(** from_solution, routedata.py:119-122 *)
Definition from_solution (sol : list nat) (D : matrix) (d : demands) : list routedata :=
  from_routes (sol2routes sol) D d.

(** to_solution, routedata.py:124-126 *)
Definition to_solution (rds : list routedata) : list nat :=
  [0%nat] ++ flat_map (fun rd => slice_from 1 (rd_route rd)) rds.
