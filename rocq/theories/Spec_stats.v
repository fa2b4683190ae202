(** * Specification for the printed statistics *)
From Verif Require Import Spec PyBase M_util M_cvrp_ops M_stats.

(** A limit that is neither set nor negative holds for an empty route. *)
Definition limit_ok (eps : Z) (lim : limit) : Prop := match lim with Some c => 0 <= c | None => True end /\ 0 <= eps.
Definition limit_set (lim : limit) : Prop := exists c, lim = Some c /\ c <> 0.

(** The rows of the table say what the routes are like. *)
Definition row_of (D D_cost : matrix) (d : demands) (C : limit) (p : printed) (r : list nat) (no : nat) : Prop :=
  exists load, p = P_route no (route_cost D_cost r) (route_cost D r) load (0%nat :: r ++ [0%nat]) /\
    (limit_set C -> load = Some (demand d r)) /\ (~ limit_set C -> load = None).
