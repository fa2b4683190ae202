(** * Specification of the uniform interface of the heuristics *)
From Verif Require Import Spec Spec_inter Spec_nn Spec_cins2 Spec_rfcs Spec_tyagi Spec_polar Spec_gm Spec_lr3opt2 Spec_all M_algos.

(** The heuristics that cannot minimize the number of routes *)
Definition refuses_minimize_K (h : heuristic) : Prop := h = HSn \/ h = HPn \/ h = HTy \/ h = HLr3o.

(** What some heuristics ask for besides a problem: distances that are metric, places that differ from each other, at
    least two customers, capacities that are not negative, points in the plane, a TSP solver that finds tours, tours
    that do not get shorter by more customers, and for lr3o what makes it end. *)
Definition fits (h : heuristic) (s : surroundings) (N : nat) (D : matrix) (d : nat -> Z) (C L : limit) : Prop :=
  match h with
  | HIms => (3 <= N)%nat
  | HMj => metric D
  | HSn | HPn => self_first N D
  | HTy => self_first N D /\ (forall c, C = Some c -> 0 <= c) /\ ((3 <= N)%nat \/ ~ limit_set C) /\
           solver N D (s_solve_tsp s) /\ (limit_set L -> shortens N D (s_solve_tsp s))
  | HCmt => solver N D (s_solve_tsp s) /\ (limit_set L -> shortens N D (s_solve_tsp s))
  | HSwp => length (s_points s) = N /\ planar (s_points s) /\ sorts (s_argsort s)
  | HGm => length (s_points s) = N /\ planar (s_points s) /\ sorts (s_argsort s) /\ solver N D (s_3opt s D) /\
           (~ limit_set C \/ ~ limit_set L \/ no_dearer N (s_3opt s D))
  | HRfcs => N = 2%nat \/
      exists tour gt len, s_solve_tsp s (seq 1 (N - 1)) = (gt, len) /\ giant_tour N tour gt /\ 0 <= len /\
        grows (s_2opt s D) tour /\ solver N D (s_2opt s D) /\ improver N D (s_3opt s D)
  | HLr3o => solver N D (s_solve_tsp s) /\ lagrangean N D d C L (s_inf s)
  | _ => True
  end.
