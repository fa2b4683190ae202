(** * C99-C103: the naive local search *)
From Verif Require Import Spec Spec_ls Spec_inter PyBase M_util M_intra M_naive Spec_naive P_base P_naive2 P_naive4 P_naive5.
From Coq Require Import ZifyBool ZifyNat Lia Arith List Permutation.
Import ListNotations.
Local Open Scope Z_scope.

(** ** C99: the operators for a whole solution *)
(** The naive 2-opt looks at all reversals of a part of a route. *)
Theorem C99_two_opt : forall eps D first rs best_delta, 0 <= eps -> start_delta best_delta <= 0 -> Forall customers_only rs ->
  exists res, answered (do_naive_2opt_move eps D first (encode rs) best_delta) res /\
    finds_improvement (path_cost D) (reversed_part (encode rs)) (path_cost D (encode rs)) (start_delta best_delta) eps (negb first) res.
Proof. exact two_opt_contract. Qed.
Print Assumptions C99_two_opt.

(** It does not check the limits, and does not have to: a shorter solution of this kind keeps them. *)
Theorem C99_two_opt_limits : forall ceps eps D d C L rs s,
  Forall customers_only rs -> NoDup (concat rs) -> Forall (feasible D d C L ceps eps) rs ->
  reversed_part (encode rs) s -> path_cost D s < path_cost D (encode rs) -> keeps_limits D d C L ceps eps s.
Proof. exact two_opt_limits. Qed.
Print Assumptions C99_two_opt_limits.

(** The naive 1-point move looks at all places for all customers, and the limits are kept even if the solution it gets
    exceeds them. *)
Theorem C99_one_point : forall ceps eps D d C L first, 0 <= eps -> nonneg_matrix D -> (forall n, 0 <= d n) -> within C ceps 0 ->
  forall rs best_delta, start_delta best_delta <= 0 -> Forall customers_only rs -> NoDup (concat rs) ->
  exists res, answered (do_naive_1point_move ceps eps D d C L first (encode rs) best_delta) res /\
    finds_improvement (path_cost D) (fun s => moved_customer (encode rs) s /\ keeps_limits D d C L ceps eps s) (path_cost D (encode rs))
      (start_delta best_delta) eps (negb first) res.
Proof. exact one_point_contract. Qed.
Print Assumptions C99_one_point.

Theorem C99_two_point : forall ceps eps D d C L first, 0 <= eps -> nonneg_matrix D -> (forall n, 0 <= d n) -> within C ceps 0 ->
  forall rs best_delta, start_delta best_delta <= 0 -> Forall customers_only rs ->
  exists res, answered (do_naive_2point_move ceps eps D d C L first (encode rs) best_delta) res /\
    finds_improvement (path_cost D) (fun s => swapped_customers (encode rs) s /\ keeps_limits D d C L ceps eps s) (path_cost D (encode rs))
      (start_delta best_delta) eps (negb first) res.
Proof. exact two_point_contract. Qed.
Print Assumptions C99_two_point.

(** Two routes; the cost of an arc is the square of the difference of the nodes, the demand of a customer is 1. *)
Definition sqD : matrix := fun i j => (Z.of_nat i - Z.of_nat j) * (Z.of_nat i - Z.of_nat j).
Definition one : demands := fun n => if Nat.eqb n 0 then 0 else 1.
Definition two_routes : list (list nat) := [[3; 1; 2]; [5; 4; 6]]%nat.
Example case_encode : encode two_routes = [0; 3; 1; 2; 0; 5; 4; 6; 0]%nat.
Proof. reflexivity. Qed.
Example case_fits : nonneg_matrix sqD /\ (forall n, 0 <= one n) /\ within (Some 4) 0 0 /\ Forall customers_only two_routes /\ NoDup (concat two_routes) /\
  Forall (feasible sqD one (Some 4) (Some 100) 0 0) two_routes.
Proof.
  split; [intros i j; unfold sqD; apply Z.square_nonneg|]. split; [intros n; unfold one; destruct (Nat.eqb n 0); lia|]. split; [cbn; lia|].
  split; [unfold two_routes, customers_only; repeat (apply Forall_cons); try apply Forall_nil; lia|].
  split. { cbn. repeat (apply NoDup_cons; [cbn; intuition lia|]). apply NoDup_nil. }
  apply Forall_cons; [|apply Forall_cons; [|apply Forall_nil]]; split; cbn; lia.
Qed.
Example C99_cases :
  do_naive_2opt_move 0 sqD false (encode two_routes) None = Found [0; 3; 1; 2; 0; 5; 6; 4; 0]%nat (-20) /\
  do_naive_1point_move 0 0 sqD one (Some 4) (Some 100) false (encode two_routes) None = Found [0; 1; 2; 0; 5; 4; 6; 3; 0]%nat (-30) /\
  do_naive_1point_move 0 0 sqD one (Some 3) (Some 100) false (encode two_routes) None <> do_naive_1point_move 0 0 sqD one (Some 4) (Some 100) false (encode two_routes) None /\
  do_naive_2point_move 0 0 sqD one (Some 3) (Some 100) false (encode [[1; 2]; [3]]%nat) (Some (-1)) = Found (encode [[3; 2]; [1]]%nat) (-8).
Proof. split; [vm_compute; reflexivity|]. split; [vm_compute; reflexivity|]. split; [vm_compute; discriminate|]. vm_compute. reflexivity. Qed.

(** ** C100: the operators applied route by route *)
(** Each route is improved by one move or left alone if there is none; the routes keep their customers and the price is
    that of all the moves together. *)
Theorem C100_relocate : forall ceps eps D d C L first rs best_delta, 0 <= eps -> nonneg_matrix D -> (forall n, 0 <= d n) -> within C ceps 0 ->
  Forall customers_only rs -> NoDup (concat rs) ->
  exists rs', Forall2 (@Permutation nat) rs rs' /\ Forall2 (route_improved moved_customer D d C L ceps eps (negb first)) rs rs' /\
   ((do_naive_relocate_move ceps eps D d C L first (encode rs) best_delta = Nothing /\ rs' = rs) \/
    (do_naive_relocate_move ceps eps D d C L first (encode rs) best_delta = Found (encode rs') (path_cost D (encode rs') - path_cost D (encode rs)) /\
     path_cost D (encode rs') + eps < path_cost D (encode rs))).
Proof. exact relocate_contract. Qed.
Print Assumptions C100_relocate.

Theorem C100_exchange : forall ceps eps D d C L first rs best_delta, 0 <= eps -> nonneg_matrix D -> (forall n, 0 <= d n) -> within C ceps 0 ->
  Forall customers_only rs -> NoDup (concat rs) ->
  exists rs', Forall2 (@Permutation nat) rs rs' /\ Forall2 (route_improved swapped_customers D d C L ceps eps (negb first)) rs rs' /\
   ((do_naive_exchange_move ceps eps D d C L first (encode rs) best_delta = Nothing /\ rs' = rs) \/
    (do_naive_exchange_move ceps eps D d C L first (encode rs) best_delta = Found (encode rs') (path_cost D (encode rs') - path_cost D (encode rs)) /\
     path_cost D (encode rs') + eps < path_cost D (encode rs))).
Proof. exact exchange_contract. Qed.
Print Assumptions C100_exchange.

(** What is returned need not be better than the bound asked for. *)
Theorem C100_bound_refuted : exists eps D d C L first rs bound s delta,
  Forall customers_only rs /\ NoDup (concat rs) /\ Forall (feasible D d C L 0 eps) rs /\
  do_naive_relocate_move 0 eps D d C L first (encode rs) (Some bound) = Found s delta /\ bound < delta + eps.
Proof.
  exists 0, sqD, one, (Some 3), (Some 100), false, two_routes, (-1000), [0; 1; 3; 2; 0; 4; 6; 5; 0]%nat, (-28).
  pose proof case_fits as (_ & _ & _ & H1 & H2 & _). split; [exact H1|]. split; [exact H2|].
  split. { apply Forall_cons; [|apply Forall_cons; [|apply Forall_nil]]; split; cbn; lia. }
  split; [vm_compute; reflexivity|lia].
Qed.
Print Assumptions C100_bound_refuted.
Example C100_cases :
  do_naive_relocate_move 0 0 sqD one (Some 3) (Some 100) false (encode two_routes) None = Found [0; 1; 3; 2; 0; 4; 6; 5; 0]%nat (-28) /\
  do_naive_exchange_move 0 0 sqD one (Some 3) (Some 100) false (encode two_routes) None = Found [0; 1; 3; 2; 0; 5; 6; 4; 0]%nat (-28).
Proof. vm_compute. auto. Qed.

(** ** C101: the local search *)
(** With the operators that work the search ends with a solution within the limits, with the same nodes, not worse than
    the one given, and that no move of the operators improves by more than eps. *)
Theorem C101_search : forall ceps eps D d C L first ls_ops rs max_iterations, 0 <= eps -> nonneg_matrix D -> (forall n, 0 <= d n) -> within C ceps 0 ->
  (forall op, In op ls_ops -> works op) -> Forall customers_only rs -> NoDup (concat rs) -> Forall (feasible D d C L ceps eps) rs ->
  exists rs' fuel0, (forall fuel, (fuel0 <= fuel)%nat -> do_naive_local_search ceps eps ls_ops (encode rs) D d C L first max_iterations fuel = Some (SearchDone (encode rs'))) /\
    Permutation (encode rs) (encode rs') /\ Forall customers_only rs' /\ Forall (feasible D d C L ceps eps) rs' /\
    (rs' = rs \/ routes_cost D rs' + eps < routes_cost D rs) /\
    forall op, In op ls_ops -> forall s, change_of op (encode rs') s -> keeps_limits D d C L ceps eps s -> path_cost D (encode rs') <= path_cost D s + eps.
Proof. exact search_result. Qed.
Print Assumptions C101_search.

(** The number of iterations asked for does not end the search: with one operator it has no effect at all. *)
Theorem C101_max_iterations_refuted :
  (forall ceps eps D d C L first op sol m fuel,
     do_naive_local_search ceps eps [op] sol D d C L first (Some m) fuel = do_naive_local_search ceps eps [op] sol D d C L first None fuel) /\
  exists D d C L sol s1 s2 delta, run_op 0 0 D d C L true N2opt sol None = Found s1 delta /\
    (forall fuel, (4 <= fuel)%nat -> do_naive_local_search 0 0 [N2opt] sol D d C L true (Some 1%nat) fuel = Some (SearchDone s2)) /\ path_cost D s2 < path_cost D s1.
Proof.
  split; [intros; apply one_op_unlimited|].
  exists sqD, one, (Some 4), (Some 100), (encode two_routes), [0; 1; 3; 2; 0; 5; 4; 6; 0]%nat, [0; 1; 3; 2; 0; 4; 6; 5; 0]%nat, (-8).
  split; [vm_compute; reflexivity|]. split; [|vm_compute; reflexivity].
  intros fuel H. replace fuel with (4 + (fuel - 4))%nat by lia. vm_compute. reflexivity.
Qed.
Print Assumptions C101_max_iterations_refuted.
Example C101_case : works N2opt /\ works N1point /\ works N2point /\
  do_naive_local_search 0 0 [N2opt; N1point; N2point] (encode two_routes) sqD one (Some 3) (Some 100) false None 10 = Some (SearchDone [0; 1; 3; 2; 0; 5; 6; 4; 0]%nat).
Proof. unfold works. repeat split; try discriminate. Qed.

(** ** C102: naive 2-opt* and 3-opt* *)
(** Neither returns a solution, whatever they are given. *)
Theorem C102_no_solution_refuted : forall eps D sol best_delta,
  match do_naive_2optstar_move eps D sol best_delta with Nothing | NameError | ValueError => True | _ => False end /\
  do_naive_3optstar_move sol best_delta = NotImplemented.
Proof. intros. split; [apply star_kinds|reflexivity]. Qed.
Print Assumptions C102_no_solution_refuted.

(** Naive 2-opt* raises NameError whenever the reversal of a part of a route is an improvement. *)
Theorem C102_name_error_refuted : forall eps D rs best_delta s, start_delta best_delta <= 0 -> 0 <= eps ->
  reversed_part (encode rs) s -> path_cost D s - path_cost D (encode rs) + eps < start_delta best_delta ->
  do_naive_2optstar_move eps D (encode rs) best_delta = NameError.
Proof. exact star_name_error. Qed.
Print Assumptions C102_name_error_refuted.
Example C102_case : reversed_part (encode two_routes) [0; 3; 1; 2; 0; 5; 6; 4; 0]%nat /\
  path_cost sqD [0; 3; 1; 2; 0; 5; 6; 4; 0]%nat - path_cost sqD (encode two_routes) + 0 < start_delta None /\
  do_naive_2optstar_move 0 sqD (encode two_routes) None = NameError /\ do_naive_2optstar_move 0 sqD (encode [[1; 2]; [4; 3]]%nat) None = NameError /\
  do_naive_2optstar_move 0 sqD (encode [[1; 3; 2]]%nat) None = Nothing.
Proof.
  split. { exists [0; 3; 1; 2; 0; 5]%nat, [4; 6]%nat, [0]%nat. split; [reflexivity|]. split; [reflexivity|]. repeat (apply Forall_cons); try apply Forall_nil; lia. }
  vm_compute. auto.
Qed.

(** ** C103: the naive operators and the others agree on a route *)
Theorem C103_two_opt : forall eps D first r best_delta, 0 <= eps -> symmetric D -> start_delta best_delta <= 0 -> customers_only r ->
  exists res, answered (do_naive_2opt_move eps D first (wrap r) best_delta) res /\ agree (negb first) eps res (do_2opt_move eps (wrap r) D first best_delta).
Proof. exact agree_2opt. Qed.
Print Assumptions C103_two_opt.

Theorem C103_relocate : forall ceps eps D d C L first r, 0 <= eps -> nonneg_matrix D -> (forall n, 0 <= d n) -> within C ceps 0 ->
  customers_only r -> NoDup r -> feasible D d C L ceps eps r ->
  exists res, answered (do_naive_relocate_move ceps eps D d C L first (wrap r) None) res /\ agree (negb first) eps res (do_relocate_move eps (wrap r) D first None).
Proof. exact agree_relocate. Qed.
Print Assumptions C103_relocate.

Theorem C103_exchange : forall ceps eps D d C L first r, 0 <= eps -> nonneg_matrix D -> (forall n, 0 <= d n) -> within C ceps 0 ->
  customers_only r -> NoDup r -> feasible D d C L ceps eps r ->
  exists res, answered (do_naive_exchange_move ceps eps D d C L first (wrap r) None) res /\ agree (negb first) eps res (do_exchange_move eps (wrap r) D first None).
Proof. exact agree_exchange. Qed.
Print Assumptions C103_exchange.
Example C103_case : customers_only [3; 1; 2; 5; 4]%nat /\ NoDup [3; 1; 2; 5; 4]%nat /\ feasible sqD one (Some 5) (Some 100) 0 0 [3; 1; 2; 5; 4]%nat /\
  do_naive_relocate_move 0 0 sqD one (Some 5) (Some 100) false (wrap [3; 1; 2; 5; 4]%nat) None = Found (wrap [1; 2; 5; 4; 3]%nat) (-18) /\
  do_relocate_move 0 (wrap [3; 1; 2; 5; 4]%nat) sqD false None = Some (wrap [1; 2; 5; 4; 3]%nat, -18).
Proof.
  split; [repeat (apply Forall_cons); try apply Forall_nil; lia|]. split; [repeat (apply NoDup_cons; [cbn; intuition lia|]); apply NoDup_nil|].
  split; [split; cbn; lia|]. vm_compute. auto.
Qed.
