(** * Model of print_solution_statistics, verypy/shared_cli.py:42-77

    Both matrices are given, as at all three call sites (shared_cli.py:150 and 312, VeRyPy.py:263);
    numbers are printed as they are instead of with two decimals. *)
From Verif Require Import Spec PyBase M_util M_cvrp_ops.

Inductive printed :=
| P_solution (sol : list nat)                                           (* SOLUTION: *)
| P_all_served (b : bool) | P_c_feasible (b : bool) | P_l_feasible (b : bool)
| P_feasible (b : bool)
| P_K (n : nat)                                                         (* SOLUTION K: *)
| P_cost (c : Z)                                                        (* SOLUTION COST: *)
| P_length (c : Z)                                                      (* SOLUTION LENGTH: *)
| P_heading                                                             (* ROUTES: and the column titles *)
| P_route (no : nat) (cost len : Z) (load : option Z) (route : list nat) (* [None] is the "-" *)
| P_total (cost len : Z).

(** [None]: an exception (an empty solution cannot be validated). *)
Definition print_solution_statistics (eps : Z) (N : nat) (sol : list nat) (D D_cost : matrix) (d : demands) (C L : limit) (verbosity : Z)
  : option (list printed) :=
  match validate_solution_feasibility N sol D_cost d C L eps with
  | None => None
  | Some (cover_ok, capa_ok, rlen_ok) =>
      let sol_f := objf sol D in
      let sol_c := objf sol D_cost in
      Some ([P_solution sol] ++
            (if 1 <? verbosity
             then [P_all_served cover_ok] ++
                  (match truthy C with Some _ => [P_c_feasible capa_ok] | None => [] end) ++
                  (match truthy L with Some _ => [P_l_feasible rlen_ok] | None => [] end)
             else [P_feasible (cover_ok && capa_ok && rlen_ok)]) ++
            [P_K (count_occ Nat.eq_dec sol 0%nat - 1)] ++
            (if ((0 <? verbosity) && negb (sol_f =? sol_c)) || (sol_c =? 0) then [P_cost sol_c] else []) ++
            (if negb (sol_c =? 0) then [P_length sol_f] else []) ++
            (if 1 <? verbosity
             then [P_heading] ++
                  map (fun ir : nat * list nat => let (i, route) := ir in
                         P_route (i + 1) (objf route D_cost) (objf route D)
                                 (match truthy C with Some _ => Some (sumZ (map d route)) | None => None end) route)
                      (combine (range 0 (length (sol2routes sol))) (sol2routes sol)) ++
                  [P_total (objf sol D_cost) (objf sol D)]
             else []))
  end.
