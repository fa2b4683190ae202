(** * Specification for the repair step of lr3opt *)
From Verif Require Import Spec Spec_inter.

(** A route cut into [ps]: every cut is needed, as the first customer after it does not fit into
    the piece before it. *)
Definition needed_splits (D : matrix) (d : demands) (C L : limit) (ceps seps : Z) (ps : list (list nat)) : Prop :=
  forall l1 p1 p2 l2, ps = l1 ++ p1 :: p2 :: l2 -> ~ feasible D d C L ceps seps (p1 ++ [hd 0%nat p2]).

(** The amount by which [x] breaks a limit, if it does by more than the tolerance. *)
Definition excess (lim : limit) (eps x : Z) : Z :=
  match lim with
  | Some c => if (c =? 0) || (x <=? c + eps) then 0 else x - c
  | None => 0
  end.
(** The Lagrangean objective: the cost of the routes and a price for every unit of demand over C and
    every unit of length over L.  The prices are lC/K and lL/K; everything is multiplied with K. *)
Definition relaxed (K lC lL : Z) (D : matrix) (d : demands) (C L : limit) (ceps seps : Z) (rs : list (list nat)) : Z :=
  K * routes_cost D rs +
  lC * sumZ (map (fun r => excess C ceps (demand d r)) rs) +
  lL * sumZ (map (fun r => excess L seps (route_cost D r)) rs).
