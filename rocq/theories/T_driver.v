(** * Properties C23, C24, C41: the local search driver *)
From Verif Require Import Spec Spec_ls Spec_inter PyBase M_util M_cvrp_ops M_routedata M_intra M_inter M_driver Spec_driver
     P_driver2 P_driver3 T_intra T_inter.

(** ** C23 *)

(** Any operators that keep their contract [op_sound]: the customers, the number of routes and
    every property [good] of single routes kept by the operators are kept by the search. *)
Theorem C23_any_operators :
  forall (rel : list nat -> routedata -> Prop) good prog eps sem ls_ops D d first it max_iterations fuel rs out,
    (forall r rd, rel r rd -> rd_route rd = wrap r) ->
    (forall op, In op ls_ops -> op_sound rel good prog (sem op)) ->
    distinct_customers rs -> Forall2 rel (filter nonempty rs) (from_solution (encode rs) D d) ->
    do_local_search eps sem ls_ops (encode rs) D d first it max_iterations fuel = Some out ->
    exists rs' rds, out = encode rs' /\ Forall2 rel rs' rds /\ length rs' = length (filter nonempty rs) /\
      Permutation (concat rs') (concat rs) /\ (Forall good rs -> Forall good rs') /\
      (unlimited max_iterations -> local_optimum sem ls_ops first rs' rds).
Proof. exact search_any. Qed.
Print Assumptions C23_any_operators.

(** The operators 2-opt, 3-opt, relocate, exchange (0-3), 1-point, 2-point, chain (4-6) in any
    combination: customers kept, feasible stays feasible, unchanged or cheaper. *)
Theorem C23_moves :
  forall eps D d C L ls_ops first it max_iterations fuel rs out,
    0 <= eps -> symmetric D -> triangle D -> D 0%nat 0%nat = 0 -> (forall n, 0 <= d n) -> d 0%nat = 0 ->
    (forall op, In op ls_ops -> (op <= 6)%nat) -> distinct_customers rs ->
    do_local_search eps (library eps D d C L) ls_ops (encode rs) D d first it max_iterations fuel = Some out ->
    exists rs', out = encode rs' /\ length rs' = length (filter nonempty rs) /\
      Permutation (concat rs') (concat rs) /\
      (Forall (feasible D d C L eps eps) rs -> Forall (feasible D d C L eps eps) rs') /\
      (rs' = filter nonempty rs \/ routes_cost D rs' < routes_cost D rs) /\
      (unlimited max_iterations -> forall op, In op ls_ops -> cannot_improve eps D d C L op rs').
Proof. exact search_moves. Qed.
Print Assumptions C23_moves.

(** 2-opt* (7) together with the operators on single routes: the same, for any symmetric matrix. *)
Theorem C23_two_opt_star :
  forall eps D d C L ls_ops first it max_iterations fuel rs out,
    0 <= eps -> symmetric D -> D 0%nat 0%nat = 0 -> d 0%nat = 0 ->
    (forall op, In op ls_ops -> (op <= 3)%nat \/ op = 7%nat) -> distinct_customers rs ->
    do_local_search eps (library eps D d C L) ls_ops (encode rs) D d first it max_iterations fuel = Some out ->
    exists rs', out = encode rs' /\ length rs' = length (filter nonempty rs) /\
      Permutation (concat rs') (concat rs) /\
      (Forall (feasible D d C L eps eps) rs -> Forall (feasible D d C L eps eps) rs') /\
      (rs' = filter nonempty rs \/ routes_cost D rs' < routes_cost D rs) /\
      (unlimited max_iterations -> forall op, In op ls_ops -> cannot_improve eps D d C L op rs').
Proof. exact search_star. Qed.
Print Assumptions C23_two_opt_star.

(** Also redistribute (8) and insert (9), which empty a route: everything but the cost. *)
Theorem C23_route_elimination :
  forall eps D d C L ls_ops first it max_iterations fuel rs out,
    0 <= eps -> symmetric D -> triangle D -> D 0%nat 0%nat = 0 -> (forall n, 0 <= d n) -> d 0%nat = 0 ->
    ~ In 7%nat ls_ops -> distinct_customers rs ->
    do_local_search eps (library eps D d C L) ls_ops (encode rs) D d first it max_iterations fuel = Some out ->
    exists rs', out = encode rs' /\ length rs' = length (filter nonempty rs) /\
      Permutation (concat rs') (concat rs) /\
      (Forall (feasible D d C L eps eps) rs -> Forall (feasible D d C L eps eps) rs') /\
      (unlimited max_iterations -> forall op, In op ls_ops -> cannot_improve eps D d C L op rs').
Proof. exact search_merge. Qed.
Print Assumptions C23_route_elimination.

(** All moves mixed with 2-opt*: the search ends, customers are kept, the cost never grows.
    Feasibility is missing: it fails, see C23_two_opt_star_mixed_refuted. *)
Theorem C23_all_moves_partial :
  forall eps D d C L ls_ops first it max_iterations rs,
    0 <= eps -> symmetric D -> D 0%nat 0%nat = 0 -> d 0%nat = 0 ->
    (forall op, In op ls_ops -> (op <= 7)%nat) -> distinct_customers rs ->
    exists (rs' : list (list nat)) (fuel0 : nat),
      (forall fuel : nat, (fuel0 <= fuel)%nat ->
         do_local_search eps (library eps D d C L) ls_ops (encode rs) D d first it max_iterations fuel = Some (encode rs')) /\
      length rs' = length (filter nonempty rs) /\ Permutation (concat rs') (concat rs) /\
      (rs' = filter nonempty rs \/ routes_cost D rs' < routes_cost D rs).
Proof. exact search_mixed. Qed.
Print Assumptions C23_all_moves_partial.

(** Feasible routes become infeasible when 2-opt* is followed by the 1-point move: capacity 20,
    a route with demand 21 in the result. *)
Theorem C23_two_opt_star_mixed_refuted :
  exists D d C first it rs rs' fuel, symmetric D /\ triangle D /\ (forall n, 0 <= d n) /\ d 0%nat = 0 /\
    distinct_customers rs /\ Forall (feasible D d C None 0 0) rs /\
    do_local_search 0 (library 0 D d C None) [7; 4]%nat (encode rs) D d first it None fuel = Some (encode rs') /\
    ~ Forall (feasible D d C None 0 0) rs'.
Proof.
  exists exM, ex_d, (Some 20), true, IterFirst, [[1; 6]; [2; 4; 5]; [3]]%nat, [[]; []; [1; 3; 2; 4; 6; 5]]%nat, 200%nat.
  split; [exact (proj1 exM_symmetric)|]. split; [intros i j k; unfold exM; lia|].
  split; [intros n; unfold ex_d; lia|]. split; [reflexivity|].
  split; [split; cbn; repeat constructor; cbn; intuition discriminate|].
  split; [repeat constructor; vm_compute; congruence|]. split; [vm_compute; reflexivity|].
  intros H. rewrite Forall_forall in H. destruct (H [1; 3; 2; 4; 6; 5]%nat) as [H3 _]; [cbn; auto|].
  vm_compute in H3. now apply H3.
Qed.
Print Assumptions C23_two_opt_star_mixed_refuted.

(** Insert merges two routes although the result is longer. *)
Theorem C23_insert_cost_refuted :
  exists D d rs rs' fuel, symmetric D /\ nonneg_matrix D /\ distinct_customers rs /\
    do_local_search 0 (library 0 D d None None) [9]%nat (encode rs) D d false IterRepeated None fuel = Some (encode rs') /\
    routes_cost D rs < routes_cost D rs'.
Proof.
  exists (ex_tri (fun i j => if Nat.eqb i 0 then 1 else 10)), ex_d, [[1]; [2]]%nat, [[]; [1; 2]]%nat, 50%nat.
  split; [apply ex_tri_symmetric|].
  split. { intros i j. unfold ex_tri. destruct (Nat.eqb i j); [lia|]. destruct (Nat.eqb _ 0); lia. }
  split; [split; cbn; repeat constructor; cbn; intuition discriminate|].
  split; vm_compute; reflexivity.
Qed.
Print Assumptions C23_insert_cost_refuted.

(** Emptied routes stay in the result as repeated depots. *)
Theorem C23_empty_routes_refuted :
  exists rs out, do_local_search 0 (library 0 exM ex_d None None) [4]%nat (encode rs) exM ex_d true IterFirst None 50 = Some out /\
    exists a b, out = a ++ [0; 0]%nat ++ b.
Proof.
  exists [[1]; [2]]%nat. eexists. split; [vm_compute; reflexivity|]. exists [], [1; 2; 0]%nat. reflexivity.
Qed.
Print Assumptions C23_empty_routes_refuted.

(** A search that uses several operators on data meeting all hypotheses. *)
Example C23_runs :
  do_local_search 0 (library 0 exM ex_d (Some 9) (Some 20)) [0; 4; 5]%nat (encode [[3; 1]; [2; 4]; [5]]%nat) exM ex_d
     false IterBest None 100 = Some (encode [[2; 3; 1]; [5; 4]; []]%nat)
  /\ Forall (feasible exM ex_d (Some 9) (Some 20) 0 0) [[3; 1]; [2; 4]; [5]]%nat
  /\ routes_cost exM [[3; 1]; [2; 4]; [5]]%nat = 24 /\ routes_cost exM [[2; 3; 1]; [5; 4]; []]%nat = 16
  /\ symmetric exM /\ triangle exM /\ distinct_customers [[3; 1]; [2; 4]; [5]]%nat.
Proof.
  split; [vm_compute; reflexivity|]. split; [repeat constructor; vm_compute; congruence|].
  split; [reflexivity|]. split; [reflexivity|]. split; [exact (proj1 exM_symmetric)|].
  split; [intros i j k; unfold exM; lia|]. split; cbn; repeat constructor; cbn; intuition discriminate.
Qed.

(** ** C24 *)

(** Any operators that decrease the cost or empty a route: the search ends, and without an
    iteration limit it ends where no operator finds anything. *)
Theorem C24_any_operators :
  forall (rel : list nat -> routedata -> Prop) good eps sem ls_ops D d first it max_iterations rs,
    (forall r rd, rel r rd -> rd_route rd = wrap r) ->
    (forall op, In op ls_ops -> op_sound rel good (cheaper_or_fewer D) (sem op)) ->
    distinct_customers rs -> Forall2 rel (filter nonempty rs) (from_solution (encode rs) D d) ->
    exists (rs' : list (list nat)) (rds : list routedata) (fuel0 : nat),
      (forall fuel : nat, (fuel0 <= fuel)%nat ->
         do_local_search eps sem ls_ops (encode rs) D d first it max_iterations fuel = Some (encode rs')) /\
      Forall2 rel rs' rds /\ (unlimited max_iterations -> local_optimum sem ls_ops first rs' rds).
Proof. exact search_optimum. Qed.
Print Assumptions C24_any_operators.

(** The operators of the library: no neighbour of the result is better by more than [eps]. *)
Theorem C24_library_operators :
  forall eps D d C L ls_ops first it max_iterations rs,
    0 <= eps -> symmetric D -> d 0%nat = 0 -> D 0%nat 0%nat = 0 -> distinct_customers rs ->
    (~ In 7%nat ls_ops /\ triangle D /\ (forall n, 0 <= d n)) \/
    (forall op, In op ls_ops -> (op <= 3)%nat \/ op = 7%nat) ->
    exists (rs' : list (list nat)) (fuel0 : nat),
      (forall fuel : nat, (fuel0 <= fuel)%nat ->
         do_local_search eps (library eps D d C L) ls_ops (encode rs) D d first it max_iterations fuel = Some (encode rs')) /\
      (unlimited max_iterations -> forall op, In op ls_ops -> cannot_improve eps D d C L op rs').
Proof. exact library_optimum. Qed.
Print Assumptions C24_library_operators.

(** The conclusion is a real restriction: the start of C23_runs could be improved. *)
Example C24_start_not_optimal : ~ cannot_improve 0 exM ex_d (Some 9) (Some 20) 4 [[3; 1]; [2; 4]; [5]]%nat.
Proof.
  intros H. specialize (H [1; 2]%nat [[2]; [5; 4]]%nat).
  assert (X : routes_cost exM [[2; 4]; [5]]%nat <= routes_cost exM [[2]; [5; 4]]%nat + 0).
  { apply H; [repeat constructor; cbn; intuition discriminate| |discriminate|].
    - intros i [<-|[<-|[]]]; cbn; split; try lia; discriminate.
    - exists [2]%nat, [5; 4]%nat. split; [reflexivity|]. split; [|split; vm_compute; congruence].
      exists [2]%nat, 4%nat, [], [5]%nat, []. auto. }
  vm_compute in X. now apply X.
Qed.

(** ** C41: the matrix [Dc] with service times, the search runs on [D] (VeRyPy.py:212).  The
    capacity and length limits given to the search are arbitrary. *)
Theorem C41_post_optimization_keeps_length_limit :
  forall u int_dtype D st Dc d C L ls_ops first it max_iterations fuel rs out eps lim cap,
    0 <= eps -> symmetric D -> D 0%nat 0%nat = 0 -> d 0%nat = 0 ->
    (forall op, In op ls_ops -> (op <= 3)%nat) ->
    distinct_customers rs -> D2D_c u int_dtype D st = Some Dc ->
    do_local_search eps (library eps D d C L) ls_ops (encode rs) D d first it max_iterations fuel = Some out ->
    exists rs', out = encode rs' /\ length rs' = length (filter nonempty rs) /\ Permutation (concat rs') (concat rs) /\
      (rs' = filter nonempty rs \/ routes_cost D rs' < routes_cost D rs) /\
      ((forall r, In r rs -> route_cost Dc r <= lim) -> forall r, In r rs' -> route_cost Dc r <= lim) /\
      ((forall r, In r rs -> demand d r <= cap) -> forall r, In r rs' -> demand d r <= cap).
Proof. exact post_optimize. Qed.
Print Assumptions C41_post_optimization_keeps_length_limit.

(** Odd service time (5 in units of 1/2), routes improved by 2-opt and 3-opt. *)
Example C41_runs :
  exists Dc, D2D_c 1 true exM (Some 10) = Some Dc /\
    do_local_search 0 (library 0 exM ex_d (Some 9) (Some 20)) [0; 1]%nat (encode [[3; 1; 4]; [2; 6; 5]]%nat) exM ex_d
      true IterAll None 100 = Some (encode [[1; 3; 4]; [2; 6; 5]]%nat) /\
    map (route_cost Dc) [[3; 1; 4]; [2; 6; 5]]%nat = [40; 40] /\ map (route_cost Dc) [[1; 3; 4]; [2; 6; 5]]%nat = [36; 40].
Proof. eexists. split; [reflexivity|]. vm_compute. auto. Qed.

(** With a move between routes the same fails: the 1-point move on the matrix without service
    times overfills a route. *)
Theorem C41_inter_route_move_refuted :
  exists D Dc d L rs rs' fuel, symmetric D /\ triangle D /\ D2D_c 1 true D (Some 8) = Some Dc /\
    (forall r, In r rs -> route_cost Dc r <= L) /\
    do_local_search 0 (library 0 D d None (Some L)) [4]%nat (encode rs) D d true IterFirst None fuel = Some (encode rs') /\
    exists r, In r rs' /\ L < route_cost Dc r.
Proof.
  exists exM. eexists. exists ex_d, 12, [[1]; [2]]%nat, [[]; [1; 2]]%nat, 50%nat.
  split; [exact (proj1 exM_symmetric)|]. split; [intros i j k; unfold exM; lia|]. split; [reflexivity|].
  split; [intros r [<-|[<-|[]]]; vm_compute; discriminate|]. split; [vm_compute; reflexivity|].
  exists [1; 2]%nat. split; [cbn; auto|]. vm_compute. reflexivity.
Qed.
Print Assumptions C41_inter_route_move_refuted.
