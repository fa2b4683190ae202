(** * Gillett and Miller's sweep: the property theorems *)
From Verif Require Import Spec Spec_rfcs Spec_inter Spec_savings Spec_sweep PyBase M_util M_psavings M_sweep M_gm Spec_gm P_sweep5 P_gm P_gm5 P_gm6 P_gm7.
From Coq Require Import Lia List Permutation.
Import ListNotations.
Local Open Scope Z_scope.

(** ** C62: the solution *)

(** Whenever the algorithm ends the solution serves everyone within the limits, is that of one of the sweeps and
    is not beaten by any other. *)
Theorem C62_result : forall ceps seps N D d C L tsp order score,
  solver N D (tsp D) -> served_alone N D d C L ceps seps -> Permutation order (seq 1 (N - 1)) ->
  (forall i, (1 <= i < N)%nat -> 0 <= d i) ->
  forall minimize_K rho dir s fuel res, (2 <= N)%nat -> seed_ok N rho s ->
  gillet_miller_init ceps seps N D d C L minimize_K tsp order score rho dir s fuel = Some res ->
  exists rs, res = SwReturns (Some (encode rs)) /\ serves N D d C L ceps seps rs /\
    (exists ccw p, goes dir ccw /\ starts_at N order rho s p /\ gm_gives ceps seps N D d C L tsp order score ccw p rs) /\
    forall ccw p, goes dir ccw -> starts_at N order rho s p ->
      exists rs', gm_gives ceps seps N D d C L tsp order score ccw p rs' /\ serves N D d C L ceps seps rs' /\
        not_beaten minimize_K D rs rs'.
Proof. exact gm_result. Qed.
Print Assumptions C62_result.

(** It ends if the solver never finds a longer tour for fewer customers.  Missing: that it ends for every solver. *)
Theorem C62_ends_partial : forall ceps seps N D d C L tsp order score,
  solver N D (tsp D) -> served_alone N D d C L ceps seps -> Permutation order (seq 1 (N - 1)) ->
  (forall i, (1 <= i < N)%nat -> 0 <= d i) -> no_dearer N (tsp D) ->
  forall minimize_K rho dir s, (2 <= N)%nat -> seed_ok N rho s ->
  exists fuel0 res, forall fuel, (fuel0 <= fuel)%nat ->
    gillet_miller_init ceps seps N D d C L minimize_K tsp order score rho dir s fuel = Some res.
Proof. exact gm_ends. Qed.
Print Assumptions C62_ends_partial.

(** An exact solver is one, in a metric. *)
Theorem C62_exact_solvers : forall N D f, symmetric D -> triangle D -> solver N D f -> exact_solver N D f -> no_dearer N f.
Proof. exact exact_no_dearer. Qed.
Print Assumptions C62_exact_solvers.

(** If one of the limits is not set it is the plain sweep with the solver as routing algorithm: in particular it ends
    (C31_sweep). *)
Theorem C62_plain_sweep : forall ceps seps N D d C L tsp order,
  is_set C = false \/ is_set L = false -> (forall x, In x order -> (1 <= x < N)%nat) ->
  forall minimize_K score rho dir s fuel,
  gillet_miller_init ceps seps N D d C L minimize_K tsp order score rho dir s fuel =
  sweep_init ceps seps D d C L minimize_K (tsp D) order N rho dir s fuel.
Proof. exact gm_plain. Qed.
Print Assumptions C62_plain_sweep.

(** An interrupt hands over the best of the sweeps that have ended. *)
Theorem C62_interrupt : forall ceps seps N D d C L tsp order score,
  solver N D (tsp D) -> served_alone N D d C L ceps seps -> Permutation order (seq 1 (N - 1)) ->
  (forall i, (1 <= i < N)%nat -> 0 <= d i) ->
  forall minimize_K runs k fuel res, Forall (fun r : bool * nat => (snd r < N - 1)%nat) runs -> runs <> [] -> (1 <= k)%nat ->
  gm_interrupted ceps seps N D d C L minimize_K tsp order score runs k fuel = Some res ->
  exists rs, res = Some (Some (encode rs)) /\ serves N D d C L ceps seps rs /\
    (exists run, In run (firstn k runs) /\ gm_gives ceps seps N D d C L tsp order score (fst run) (snd run) rs) /\
    forall run, In run (firstn k runs) ->
      exists rs', gm_gives ceps seps N D d C L tsp order score (fst run) (snd run) rs' /\ serves N D d C L ceps seps rs' /\
        not_beaten minimize_K D rs rs'.
Proof. exact gm_prefix. Qed.
Print Assumptions C62_interrupt.

(** Six customers whose ways all lead through the depot: the hypotheses hold, and exchanges change the routes. *)
Example C62_case : solver 7 arms (in_sweep_order arms) /\ served_alone 7 arms loads (Some 8) (Some 30) 0 0 /\ Permutation six (seq 1 (7 - 1)) /\
  (forall i, 0 <= loads i) /\ no_dearer 7 (in_sweep_order arms) /\
  sweep_init 0 0 arms loads (Some 8) (Some 30) false (in_sweep_order arms) six 7 [] CCW SmallestAngle 60 = Some (SwReturns (Some [0;1;2;0;3;4;6;0;5;0]%nat)) /\
  gillet_miller_init 0 0 7 arms loads (Some 8) (Some 30) false in_sweep_order six by_number [] CCW SmallestAngle 60 =
    Some (SwReturns (Some [0;2;6;5;0;1;4;0;3;0]%nat)) /\
  gillet_miller_init 0 0 7 arms loads (Some 8) None false in_sweep_order six by_number [] CCW SmallestAngle 60 =
    Some (SwReturns (Some [0;1;2;3;0;4;5;6;0]%nat)) /\
  gm_interrupted 0 0 7 arms loads (Some 8) (Some 30) false in_sweep_order six by_number (sw_runs CCW [0;1;2]%nat) 2 60 =
    Some (Some (Some [0;2;6;5;0;1;4;0;3;0]%nat)).
Proof.
  split; [apply in_sweep_order_solver|]. split; [exact arms_alone|]. split; [apply Permutation_refl|]. split; [exact loads_pos|].
  split; [apply star_no_dearer; [reflexivity|exact arm_pos]|]. repeat split; vm_compute; reflexivity.
Qed.

(** ** C63: the exchange rule *)

(** When a route is complete, [x], the closest customer not routed to the one before the next customer, is taken in
    for [k], the customer of the route with the smallest score, if that is feasible and worth it; if not, both [x] and
    [z], the closest other customer to [x], if that is; if not, the route stays as it is. *)
Theorem C63_exchange_rule : forall ceps seps N D d C L tsp order ccw score routed r pos,
  Permutation order (seq 1 (N - 1)) -> (pos < N - 1)%nat ->
  sr_set r <> [] -> NoDup (sr_set r) -> (forall x, In x (sr_set r) -> routed x = true) -> routed 0%nat = true ->
  (limit_set C -> sr_demand r = demand d (sr_set r)) -> routed (nth pos order 0%nat) = false ->
  let chain := ahead ccw order routed pos in
  let e := path_end ccw order routed pos in
  let res := gm_callback ceps seps N D d C L tsp order ccw score routed r pos in
  let next := nth pos order 0%nat in
  exists k x, leaves score (sr_set r) k /\ closest N D (fun y => routed y = false) (just_before ccw order pos) x /\
    (worth_one ceps seps D d C L tsp (sr_set r) (sr_cost r) chain e k x ->
       answers (tsp D) res (with_one (sr_set r) k x) [x] (k :: if Nat.eqb x next then [] else [next])) /\
    (~ worth_one ceps seps D d C L tsp (sr_set r) (sr_cost r) chain e k x ->
       (forall z, closest N D (fun y => routed y = false /\ y <> x) x z ->
          worth_two ceps seps D d C L tsp (sr_set r) (sr_cost r) chain e k x z ->
          answers (tsp D) res (with_two (sr_set r) k x z) [x; z] (k :: if Nat.eqb x next || Nat.eqb z next then [] else [next])) /\
       ((forall z, closest N D (fun y => routed y = false /\ y <> x) x z ->
          ~ worth_two ceps seps D d C L tsp (sr_set r) (sr_cost r) chain e k x z) ->
        res = (r, [], [], true))).
Proof. exact exchange_rule. Qed.
Print Assumptions C63_exchange_rule.

Definition first_route : swroute := mkswr [0;1;2;0]%nat 24 6 [1;2]%nat.
Example C63_case :
  let routed := fun x => (x <? 3)%nat in
  nth 2 six 0%nat = 3%nat /\ sr_demand first_route = demand loads [1;2]%nat /\
  leaves (by_number true 0%nat) [1;2]%nat 1 /\ closest 7 arms (fun y => routed y = false) (just_before true six 2) 6 /\
  ahead true six routed 2 = [3;4;5;6]%nat /\ path_end true six routed 2 = 0%nat /\
  worth_one 0 0 arms loads (Some 8) (Some 30) in_sweep_order [1;2]%nat 24 [3;4;5;6]%nat 0 1 6 /\
  gm_callback 0 0 7 arms loads (Some 8) (Some 30) in_sweep_order six true (by_number true 0%nat) routed first_route 2 =
    (mkswr [0;2;6;0]%nat 10 3 [2;6]%nat, [6]%nat, [1;3]%nat, false).
Proof.
  cbv zeta. split; [reflexivity|]. split; [reflexivity|]. split.
  - exists [], [2%nat]. split; [reflexivity|]. split; [easy|]. intros y [<-|[]]. vm_compute. discriminate.
  - split.
    + split; [lia|]. split; [reflexivity|]. intros y Hy Hr. destruct y as [|[|[|[|[|[|[|]]]]]]]; try lia; try discriminate; try (left; vm_compute; reflexivity).
    + do 2 (split; [reflexivity|]). split; [|reflexivity]. split; [vm_compute; repeat split; discriminate|]. split; [cbn; tauto|vm_compute; discriminate].
Qed.

(** No exchange is ever made unless both limits are set. *)
Theorem C63_both_limits_needed_refuted : forall ceps seps D d C L tsp R cost chain e k x z,
  ~ limit_set C \/ ~ limit_set L ->
  ~ worth_one ceps seps D d C L tsp R cost chain e k x /\ ~ worth_two ceps seps D d C L tsp R cost chain e k x z.
Proof. exact one_limit. Qed.
Print Assumptions C63_both_limits_needed_refuted.

(** Lengths of paths are found by setting entries of the distance matrix to zero.  A symmetric matrix is as before
    afterwards. *)
Theorem C63_matrix_restored : forall D e i j, symmetric D -> matrix_after D e i j = D i j.
Proof. exact restored. Qed.
Print Assumptions C63_matrix_restored.
Example C63_matrix_case : symmetric arms /\ path_matrix arms 3%nat 0%nat 3%nat <> arms 0%nat 3%nat.
Proof. split; [intros i j; unfold arms, star; rewrite (PeanoNat.Nat.eqb_sym i j); destruct (Nat.eqb j i); lia|vm_compute; discriminate]. Qed.
(** An asymmetric one is not. *)
Theorem C63_asymmetric_refuted : exists D e i j, triangle D /\ (forall i, D i i = 0) /\ matrix_after D e i j <> D i j.
Proof. exact not_restored. Qed.
Print Assumptions C63_asymmetric_refuted.
(** Nor is a symmetric one if the solver is interrupted: solutions look shorter than they are. *)
Theorem C63_interrupted_refuted : exists D e sol, symmetric D /\ triangle D /\ (forall i, D i i = 0) /\
  objf sol (path_matrix D e) < objf sol D.
Proof. exact left_changed. Qed.
Print Assumptions C63_interrupted_refuted.
