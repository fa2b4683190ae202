(** * Properties C12-C16: intra-route moves and the TSP solver *)
From Verif Require Import Spec Spec_ls PyBase M_util M_intra P_base P_scan P_intra P_intra2.

(** ** C12 *)
Theorem C12_two_opt_contract :
  forall eps route D first best_delta, 0 <= eps -> symmetric D ->
    finds_improvement (path_cost D) (two_opt_nbr route) (path_cost D route)
      (start_delta best_delta) eps (negb first) (do_2opt_move eps route D first best_delta).
Proof. exact do_2opt_contract. Qed.
Print Assumptions C12_two_opt_contract.

(** The neighbours keep the nodes and the ends. *)
Theorem C12_two_opt_nodes : forall route r', two_opt_nbr route r' -> same_tour_nodes route r'.
Proof. exact two_opt_same. Qed.
Print Assumptions C12_two_opt_nodes.

Definition exM : matrix := fun i j => Z.abs (Z.of_nat i - Z.of_nat j).
Definition exM2 : matrix := fun i j => (Z.of_nat i - Z.of_nat j) * (Z.of_nat i - Z.of_nat j).
Example exM_symmetric : symmetric exM /\ symmetric exM2.
Proof. split; intros i j; unfold exM, exM2; lia. Qed.
Example C12_finds :
  do_2opt_move 0 [0; 3; 2; 1; 4; 0]%nat exM2 true None = Some ([0; 2; 3; 1; 4; 0]%nat, -2) /\
  do_2opt_move 0 [0; 3; 2; 1; 4; 0]%nat exM2 false None = Some ([0; 1; 2; 3; 4; 0]%nat, -16) /\
  do_2opt_move 0 [0; 2; 4; 3; 1; 0]%nat exM2 false None = None /\
  do_2opt_move 0 [0; 3; 2; 1; 4; 0]%nat exM2 false (Some (-16)) = None.
Proof. vm_compute. auto. Qed.

(** ** C13 *)
Theorem C13_three_opt_contract :
  forall eps route D first best_delta, 0 <= eps -> symmetric D ->
    finds_improvement (path_cost D) (three_opt_nbr route) (path_cost D route)
      (start_delta best_delta) eps (negb first) (do_3opt_move eps route D first best_delta).
Proof. exact do_3opt_contract. Qed.
Print Assumptions C13_three_opt_contract.

Theorem C13_three_opt_nodes : forall route r', three_opt_nbr route r' -> same_tour_nodes route r'.
Proof. exact three_opt_same. Qed.
Print Assumptions C13_three_opt_nodes.

Theorem C13_three_opt_includes_two_opt :
  forall route r', (4 <= length route)%nat -> two_opt_nbr route r' -> three_opt_nbr route r'.
Proof. exact two_opt_in_three_opt. Qed.
Print Assumptions C13_three_opt_includes_two_opt.

Example C13_finds :
  do_3opt_move 0 [0; 3; 4; 1; 2; 5; 0]%nat exM2 false None = Some ([0; 3; 4; 5; 2; 1; 0]%nat, -32) /\
  do_3opt_move 0 [0; 2; 4; 3; 1; 0]%nat exM2 true None = None.
Proof. vm_compute. auto. Qed.

(** ** C14 *)
Theorem C14_relocate_contract :
  forall eps route D first best_delta, 0 <= eps -> simple_tour route ->
    finds_improvement (path_cost D) (relocate_nbr route) (path_cost D route)
      (start_delta best_delta) eps (negb first) (do_relocate_move eps route D first best_delta).
Proof. exact do_relocate_contract. Qed.
Print Assumptions C14_relocate_contract.

(** Without any assumption on the route, what is returned is still right. *)
Theorem C14_relocate_sound :
  forall eps route D first best_delta r' delta, 0 <= eps ->
    do_relocate_move eps route D first best_delta = Some (r', delta) ->
    relocate_nbr route r' /\ delta = path_cost D r' - path_cost D route /\
    delta + eps < start_delta best_delta.
Proof. exact do_relocate_sound. Qed.
Print Assumptions C14_relocate_sound.

Theorem C14_relocate_nodes : forall route r', relocate_nbr route r' -> same_tour_nodes route r'.
Proof. exact relocate_same. Qed.
Print Assumptions C14_relocate_nodes.

Example C14_finds :
  do_relocate_move 0 [0; 4; 1; 2; 3; 0]%nat exM2 false None = Some ([0; 1; 2; 4; 3; 0]%nat, -20) /\
  do_relocate_move 0 [0; 2; 4; 3; 1; 0]%nat exM2 false None = None.
Proof. vm_compute. auto. Qed.
Example C14_simple : simple_tour [0; 4; 1; 2; 3; 0]%nat.
Proof. split; cbn; repeat constructor; cbn; intuition discriminate. Qed.

(** ** C15 *)
Theorem C15_exchange_contract :
  forall eps route D first best_delta, 0 <= eps -> simple_tour route ->
    finds_improvement (path_cost D) (exchange_nbr route) (path_cost D route)
      (start_delta best_delta) eps (negb first) (do_exchange_move eps route D first best_delta).
Proof. exact do_exchange_contract. Qed.
Print Assumptions C15_exchange_contract.

Theorem C15_exchange_nodes : forall route r', exchange_nbr route r' -> same_tour_nodes route r'.
Proof. exact exchange_same. Qed.
Print Assumptions C15_exchange_nodes.

Example C15_finds :
  do_exchange_move 0 [0; 3; 2; 1; 4; 0]%nat exM2 true None = Some ([0; 2; 3; 1; 4; 0]%nat, -2) /\
  do_exchange_move 0 [0; 3; 2; 1; 4; 0]%nat exM2 false None = Some ([0; 1; 2; 3; 4; 0]%nat, -16) /\
  simple_tour [0; 3; 2; 1; 4; 0]%nat.
Proof.
  split; [now vm_compute|split; [now vm_compute|]].
  split; cbn; repeat constructor; cbn; intuition discriminate.
Qed.

(** ** C16 *)
Theorem C16_tsp_solver :
  forall eps D e rest shuffled do2opt do3opt, 0 <= eps -> symmetric D -> NoDup (e :: rest) ->
  match shuffled with Some p => Permutation p rest | None => rest <> [] end ->
  let start := match shuffled with Some p => p | None => rest end in
  exists fuel0, forall fuel, (fuel0 <= fuel)%nat ->
  exists r, solve_tsp_ropt eps fuel D (e :: rest) shuffled do2opt do3opt
            = Some (Some (e :: r ++ [e], path_cost D (e :: r ++ [e]))) /\
    Permutation r rest /\
    path_cost D (e :: r ++ [e]) <= path_cost D (e :: start ++ [e]) /\
    (do3opt = true -> forall t, three_opt_nbr (e :: r ++ [e]) t -> path_cost D (e :: r ++ [e]) <= path_cost D t + eps) /\
    (do2opt = true -> do3opt = false ->
       forall t, two_opt_nbr (e :: r ++ [e]) t -> path_cost D (e :: r ++ [e]) <= path_cost D t + eps).
Proof. exact solve_tsp_tour. Qed.
Print Assumptions C16_tsp_solver.

(** Any non-empty node list, closed or not, with repetitions or not. *)
Theorem C16_tsp_solver_any_list :
  forall eps D idxs shuffled do2opt do3opt, 0 <= eps -> symmetric D -> idxs <> [] ->
  exists fuel0, forall fuel, (fuel0 <= fuel)%nat ->
  exists r, solve_tsp_ropt eps fuel D idxs shuffled do2opt do3opt = Some (Some (r, path_cost D r)) /\
    same_tour_nodes (initial_tour idxs shuffled) r /\
    path_cost D r <= path_cost D (initial_tour idxs shuffled) /\
    (do3opt = true -> forall r', three_opt_nbr r r' -> path_cost D r <= path_cost D r' + eps) /\
    (do2opt = true -> do3opt = false -> forall r', two_opt_nbr r r' -> path_cost D r <= path_cost D r' + eps).
Proof. exact solve_tsp_spec. Qed.
Print Assumptions C16_tsp_solver_any_list.

Example C16_solves :
  solve_tsp_ropt 0 20 exM2 [0; 3; 1; 4; 2]%nat None true true = Some (Some ([0; 1; 3; 4; 2; 0]%nat, 14)) /\
  solve_tsp_2opt 0 20 exM2 [0; 3; 1; 4; 2]%nat = Some (Some ([0; 1; 3; 4; 2; 0]%nat, 14)) /\
  solve_tsp_3opt 0 20 exM2 [0; 3; 1; 4; 2]%nat = Some (Some ([0; 1; 3; 4; 2; 0]%nat, 14)).
Proof. vm_compute. auto. Qed.
