(** * Properties C30, C50 and C51: cheapest insertion *)
From Verif Require Import Spec Spec_inter Spec_savings Spec_cins PyBase M_util M_intra M_psavings M_cins Spec_cins2 P_cins4 P_cins5 P_cins6.

(** Customers on a line, ten apart, the depot at 0; two units for everyone. *)
Definition line_D : matrix := fun i j => 10 * Z.abs (Z.of_nat i - Z.of_nat j).
Definition two_each : demands := fun i => if Nat.eqb i 0 then 0 else 2.
Example line_metric : metric line_D.
Proof. split; [|split]; unfold line_D; intro; intros; lia. Qed.
Example line_alone : served_alone 6 line_D two_each (Some 5) (Some 100) 0 0.
Proof. intros i Hi. assert (H : i = 1%nat \/ i = 2%nat \/ i = 3%nat \/ i = 4%nat \/ i = 5%nat) by lia. destruct H as [->|[->|[->|[->| ->]]]]; split; vm_compute; intros _; discriminate. Qed.

(** ** C30 *)

(** Any strain callback, any method of beginning a route: a run ends, either with a solution in which
    everyone is served once, or with an IndexError for want of seed customers. *)
Theorem C30_everyone_served_partial :
  forall ceps seps N D d C L minimize_K K m strain ident fuel,
    d 0%nat = 0 -> (1 <= K)%nat -> (N <= fuel)%nat ->
    exists o pts, cheapest_insertion_init ceps seps N D d C L minimize_K K m strain ident fuel = Some (o, pts) /\
      (o = RanOutOfSeeds \/ exists rs, o = Solution (encode rs) /\ covers N rs /\ Forall (fun r => r <> []) rs).
Proof. exact cins_everyone. Qed.
Print Assumptions C30_everyone_served_partial.

(** Within the limits, if routes are begun with one customer: farthest, closest, or by the strain of
    Mole and Jameson with metric distances. *)
Theorem C30_served_within_limits_partial :
  forall ceps seps N D d C L minimize_K K m strain ident fuel,
    d 0%nat = 0 -> single_seeds D m strain -> served_alone N D d C L ceps seps -> (1 <= K < N)%nat -> (N <= fuel)%nat ->
    exists rs pts, cheapest_insertion_init ceps seps N D d C L minimize_K K m strain ident fuel = Some (Solution (encode rs), pts) /\
      serves N D d C L ceps seps rs /\ (K <= length rs)%nat.
Proof. exact cins_feasible. Qed.
Print Assumptions C30_served_within_limits_partial.

Example C30_single_seeds : single_seeds line_D Strain (param_criteria 1 1 0 line_D) /\ single_seeds line_D Farthest (fun _ _ _ => (0, 0)).
Proof. split; [right; exists 1, 1, 0; repeat split; try lia; apply line_metric|left; discriminate]. Qed.
Example C30_run : exists pts,
  cheapest_insertion_init 0 0 6 line_D two_each (Some 5) (Some 100) false 2 Farthest (param_criteria 1 1 0 line_D) Z.of_nat 6
  = Some (Solution (encode [[1]; [2; 4]; [3; 5]]%nat), pts).
Proof. eexists. vm_compute. reflexivity. Qed.

(** The parallel algorithm as registered: as many routes at a time as the sequential version needs. *)
Theorem C30_parallel_with_automatic_number_of_routes :
  forall ceps seps N D d C L minimize_K,
    d 0%nat = 0 -> forall ident ident' fuel, (2 <= N <= fuel)%nat ->
    exists rs, parallel_insertion_auto ceps seps N D d C L minimize_K ident ident' fuel = Some (Solution (encode rs)) /\
      covers N rs /\ Forall (fun r => r <> []) rs /\
      (served_alone N D d C L ceps seps -> Forall (feasible D d C L ceps seps) rs).
Proof. exact cins_auto. Qed.
Print Assumptions C30_parallel_with_automatic_number_of_routes.

Example C30_run_auto :
  parallel_insertion_auto 0 0 6 line_D two_each (Some 5) (Some 100) false Z.of_nat Z.of_nat 6
  = Some (Solution (encode [[2; 5]; [1; 4]; [3]]%nat)).
Proof. vm_compute. reflexivity. Qed.

(** As many or more routes than customers, or no customers at all: IndexError. *)
Theorem C30_more_routes_than_customers_refuted :
  forall ceps seps N D d C L minimize_K K m strain ident fuel,
    d 0%nat = 0 -> single_seeds D m strain -> (1 <= K)%nat -> (N <= K)%nat -> (N <= fuel)%nat ->
    cheapest_insertion_init ceps seps N D d C L minimize_K K m strain ident fuel = Some (RanOutOfSeeds, []).
Proof. exact cins_too_many. Qed.
Print Assumptions C30_more_routes_than_customers_refuted.

Example C30_no_customers :
  cheapest_insertion_init 0 0 1 line_D two_each None None false 1 Farthest (param_criteria 1 1 0 line_D) Z.of_nat 1
  = Some (RanOutOfSeeds, []).
Proof. vm_compute. reflexivity. Qed.

(** Pairs with which routes are begun by "strain" are not checked against the limits. *)
Theorem C30_pairs_of_seeds_refuted :
  exists N D d C L strain rs pts,
    d 0%nat = 0 /\ metric D /\ served_alone N D d C L 0 0 /\
    cheapest_insertion_init 0 0 N D d C L false 1 Strain strain Z.of_nat N = Some (Solution (encode rs), pts) /\
    covers N rs /\ ~ Forall (feasible D d C L 0 0) rs.
Proof.
  exists 4%nat, line_D, two_each, (Some 3), None, (fun _ u j => (line_D u j, 0)), [[2]; [1; 3]]%nat. eexists.
  split; [reflexivity|]. split; [exact line_metric|]. split.
  - intros i Hi. assert (H : i = 1%nat \/ i = 2%nat \/ i = 3%nat) by lia. destruct H as [->|[->| ->]]; (split; [vm_compute; intros _; discriminate|exact I]).
  - split; [vm_compute; reflexivity|]. split.
    + unfold covers. cbn. apply Permutation_sym. apply perm_swap.
    + intro H. inversion H as [|? ? _ H2]; subst. inversion H2 as [|? ? [H3 _] _]; subst. vm_compute in H3. apply H3; [discriminate|reflexivity].
Qed.
Print Assumptions C30_pairs_of_seeds_refuted.

(** ** C50 *)

(** Always the best insertion that is admissible is made, a route is closed only when none is left, and
    routes are begun as documented.  For demands that are not negative (if there is a capacity) and
    distances with the triangle inequality (if there is a length limit). *)
Theorem C50_cheapest_insertion_rule_partial :
  forall ceps seps N D d C L minimize_K,
    d 0%nat = 0 -> forall K m strain ident fuel, (1 <= K)%nat -> (N <= fuel)%nat ->
    (is_set C = true -> forall j, (j < N)%nat -> 0 <= d j) ->
    (is_set L = true -> forall i j k, (i < N)%nat -> (j < N)%nat -> (k < N)%nat -> D i k <= D i j + D j k) ->
    (exists rs pts, cheapest_insertion_init ceps seps N D d C L minimize_K K m strain ident fuel = Some (Solution (encode rs), pts) /\
       built_by_rule N D d C L ceps seps minimize_K strain (begins_with D strain m) K rs) \/
    cheapest_insertion_init ceps seps N D d C L minimize_K K m strain ident fuel = Some (RanOutOfSeeds, []).
Proof. exact cins_rule. Qed.
Print Assumptions C50_cheapest_insertion_rule_partial.

Example C50_case : (forall j, (j < 6)%nat -> 0 <= two_each j) /\ (forall i j k, (i < 6)%nat -> (j < 6)%nat -> (k < 6)%nat -> line_D i k <= line_D i j + line_D j k).
Proof. split; [intros j _; unfold two_each; destruct (Nat.eqb j 0); lia|intros; apply line_metric]. Qed.

(** Without the triangle inequality a route may be closed although a customer still fits. *)
Theorem C50_detours_refuted :
  exists pts,
    cheapest_insertion_init 0 0 4 detour_D (fun _ => 0) None (Some 105) false 1 Farthest detour_strain Z.of_nat 4
    = Some (Solution (encode [[3]; [2; 1]]%nat), pts) /\
    ~ built_by_rule 4 detour_D (fun _ => 0) None (Some 105) 0 0 false detour_strain (begin_farthest detour_D) 1 [[3]; [2; 1]]%nat.
Proof. exact detour_refuted. Qed.
Print Assumptions C50_detours_refuted.

(** ** C51 *)

(** An interrupt at any other point than the two below delivers a complete solution. *)
Theorem C51_interrupted_partial :
  forall ceps seps N D d C L minimize_K K m strain ident fuel order o pts p s,
    d 0%nat = 0 -> (1 <= K)%nat -> (N <= fuel)%nat -> (forall l, Permutation (order l) l) ->
    cheapest_insertion_init ceps seps N D d C L minimize_K K m strain ident fuel = Some (o, pts) -> In (p, s) pts ->
    p <> RouteCompleted -> p <> SeedTaken ->
    exists rs, handler_sol order s = encode rs /\ covers N rs /\ Forall (fun r => r <> []) rs /\
      (single_seeds D m strain -> served_alone N D d C L ceps seps -> Forall (feasible D d C L ceps seps) rs).
Proof. exact cins_interrupted. Qed.
Print Assumptions C51_interrupted_partial.

Example C51_points : exists o pts s, cheapest_insertion_init 0 0 6 line_D two_each (Some 5) (Some 100) false 2 Farthest (param_criteria 1 1 0 line_D) Z.of_nat 6 = Some (o, pts) /\
  In (CustomerInserted, s) pts /\ handler_sol (fun l => l) s = encode [[3; 5]; [4]; [1]; [2]]%nat.
Proof. eexists. eexists. eexists. split; [vm_compute; reflexivity|]. split; [right; left; reflexivity|vm_compute; reflexivity]. Qed.

(** After a route is completed and before it is replaced: the route is delivered twice, and the customer
    taken for the next one is lost. *)
Theorem C51_completed_route_refuted :
  exists N D d C strain o pts s s', d 0%nat = 0 /\ served_alone N D d C None 0 0 /\
    cheapest_insertion_init 0 0 N D d C None false 1 Farthest strain Z.of_nat N = Some (o, pts) /\
    In (RouteCompleted, s) pts /\ handler_sol (fun l => l) s = encode [[3]; [3]; [1]; [2]]%nat /\
    In (SeedTaken, s') pts /\ handler_sol (fun l => l) s' = encode [[3]; [3]; [1]]%nat /\ N = 4%nat.
Proof.
  exists 4%nat, line_D, two_each, (Some 3), (param_criteria 1 1 0 line_D). eexists. eexists. eexists. eexists.
  split; [reflexivity|]. split.
  - intros i Hi. assert (H : i = 1%nat \/ i = 2%nat \/ i = 3%nat) by lia. destruct H as [->|[->| ->]]; (split; [vm_compute; intros _; discriminate|exact I]).
  - split; [vm_compute; reflexivity|]. split; [right; left; reflexivity|]. split; [vm_compute; reflexivity|].
    split; [right; right; left; reflexivity|]. split; [vm_compute; reflexivity|reflexivity].
Qed.
Print Assumptions C51_completed_route_refuted.
