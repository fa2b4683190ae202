(** * Specification of moves between routes

    Routes are lists of customers.  The record [routedata] (route with depots, stored cost,
    stored demand) is the only notion taken from the model. *)
From Verif Require Import Spec Spec_ls M_routedata.

Definition limit_set (lim : limit) : Prop := match lim with Some c => c <> 0 | None => False end.

(** The stored data are those of the route [r]; the demand matters if there is a capacity. *)
Definition exact_rd (D : matrix) (d : demands) (C : limit) (r : list nat) (rd : routedata) : Prop :=
  rd_route rd = wrap r /\ rd_cost rd = route_cost D r /\
  (limit_set C -> rd_demand rd = Some (demand d r)).

(** Only the stored routes are right. *)
Definition routes_of (rs : list (list nat)) (rds : list routedata) : Prop :=
  map rd_route rds = map wrap rs.

(** An operator on the routes [rs]: [finds_improvement] on lists of routes, the result being
    reported as route data related to the new routes by [rel]. *)
Definition op_contract (D : matrix) (rel : list (list nat) -> list routedata -> Prop)
           (nbr : list (list nat) -> Prop) (rs : list (list nat)) (thr eps : Z) (best : bool)
           (res : option (list routedata * Z)) : Prop :=
  exists res',
    finds_improvement (routes_cost D) nbr (routes_cost D rs) thr eps best res' /\
    match res, res' with
    | None, None => True
    | Some (rds, delta), Some (rs', delta') => rel rs' rds /\ delta = delta'
    | _, _ => False
    end.

(** Swap the tails of two routes, reversing pieces as needed. *)
Definition two_opt_star_move (r1 r2 r1' r2' : list nat) : Prop :=
  exists p1 s1 p2 s2, r1 = p1 ++ s1 /\ r2 = p2 ++ s2 /\
    ((r1' = p1 ++ rev p2 /\ r2' = rev s1 ++ s2) \/ (r1' = p1 ++ s2 /\ r2' = rev s1 ++ rev p2)).

(** Move a customer of the first route anywhere into the second one. *)
Definition one_point_move (r1 r2 r1' r2' : list nat) : Prop :=
  exists l1 b l2 m1 m2, r1 = l1 ++ [b] ++ l2 /\ r2 = m1 ++ m2 /\
    r1' = l1 ++ l2 /\ r2' = m1 ++ [b] ++ m2.

(** Swap a customer of the first with a customer of the second route. *)
Definition two_point_move (r1 r2 r1' r2' : list nat) : Prop :=
  exists l1 b l2 m1 e m2, r1 = l1 ++ [b] ++ l2 /\ r2 = m1 ++ [e] ++ m2 /\
    r1' = l1 ++ [e] ++ l2 /\ r2' = m1 ++ [b] ++ m2.

(** A customer of route 1 replaces one of route 2, which is inserted into route 3. *)
Definition chain_move (r1 r2 r3 r1' r2' r3' : list nat) : Prop :=
  exists l1 b l2 m1 e m2 n1 n2, r1 = l1 ++ [b] ++ l2 /\ r2 = m1 ++ [e] ++ m2 /\ r3 = n1 ++ n2 /\
    r1' = l1 ++ l2 /\ r2' = m1 ++ [b] ++ m2 /\ r3' = n1 ++ [e] ++ n2.

Definition feasible (D : matrix) (d : demands) (C L : limit) (epsC epsL : Z) (r : list nat) : Prop :=
  within C epsC (demand d r) /\ within L epsL (route_cost D r).

(** The neighbourhoods searched: which of the new routes have to be feasible. *)
Definition nbr_2optstar D d C L eps r1 r2 (rs : list (list nat)) : Prop :=
  exists r1' r2', rs = [r1'; r2'] /\ two_opt_star_move r1 r2 r1' r2' /\
    feasible D d C L eps eps r1' /\ feasible D d C L eps eps r2'.
Definition nbr_1point D d C L eps r1 r2 (rs : list (list nat)) : Prop :=
  exists r1' r2', rs = [r1'; r2'] /\ one_point_move r1 r2 r1' r2' /\ feasible D d C L eps eps r2'.
Definition nbr_2point D d C L eps r1 r2 (rs : list (list nat)) : Prop :=
  exists r1' r2', rs = [r1'; r2'] /\ two_point_move r1 r2 r1' r2' /\
    feasible D d C L eps 0 r1' /\ feasible D d C L eps 0 r2'.
Definition nbr_chain D d C L r1 r2 r3 (rs : list (list nat)) : Prop :=
  exists r1' r2' r3', rs = [r1'; r2'; r3'] /\ chain_move r1 r2 r3 r1' r2' r3' /\
    feasible D d C L 0 0 r2' /\ feasible D d C L 0 0 r3'.

(** [l] is an interleaving of [a] and [b]: both orders are kept. *)
Inductive interleaved {A} : list A -> list A -> list A -> Prop :=
| il_nil : interleaved [] [] []
| il_left : forall x a b l, interleaved a b l -> interleaved (x :: a) b (x :: l)
| il_right : forall x a b l, interleaved a b l -> interleaved a (x :: b) (x :: l).
