(** * Properties C52 and C53: Mole-Jameson insertion *)
From Verif Require Import Spec Spec_inter Spec_driver Spec_savings Spec_cins PyBase M_util M_routedata M_intra M_inter M_driver M_psavings M_cins Spec_cins2 M_mj Spec_mj P_mj2 P_mj3 P_mj4.
From Coq Require Import Lia.

(** Customers on a line, ten apart, the depot at 0; two units for everyone. *)
Definition mj_line : matrix := fun i j => 10 * Z.abs (Z.of_nat i - Z.of_nat j).
Definition mj_two : demands := fun i => if Nat.eqb i 0 then 0 else 2.
Example mj_line_metric : metric mj_line.
Proof. split; [|split]; unfold mj_line; intro; intros; lia. Qed.
Example mj_line_alone : served_alone 6 mj_line mj_two (Some 5) (Some 100) 0 0.
Proof. intros i Hi. assert (H : i = 1%nat \/ i = 2%nat \/ i = 3%nat \/ i = 4%nat \/ i = 5%nat) by lia. destruct H as [->|[->|[->|[->| ->]]]]; split; vm_compute; intros _; discriminate. Qed.

Definition apart : matrix := fun i j => if Nat.eqb i j then 0 else 10.
Example apart_metric : metric apart.
Proof.
  unfold apart. split; [|split].
  - intros i. now rewrite Nat.eqb_refl.
  - intros i j. now rewrite Nat.eqb_sym.
  - intros i j k. destruct (Nat.eqb_spec i k), (Nat.eqb_spec i j), (Nat.eqb_spec j k); subst; lia || congruence.
Qed.

(** ** C52 *)

(** For every choice of strain criteria the run ends with a solution that serves everyone within the limits,
    that no one-point move (4) and no 2-opt move (0) improves, and that is not beaten by what any of the
    criteria gives, before or after the refinement. *)
Theorem C52_serves_optimised_and_best :
  forall eps N D d C L minimize_K,
    0 <= eps -> metric D -> (forall n, 0 <= d n) -> d 0%nat = 0 -> (2 <= N)%nat -> served_alone N D d C L eps eps ->
    exists fuel0, forall fuel, (fuel0 <= fuel)%nat -> forall ident c,
    exists rs, mole_jameson_insertion_init eps N D d C L minimize_K ident c fuel = Some (Some (Returns (Some (encode rs)))) /\
      serves N D d C L eps eps rs /\ (forall op, In op [4; 0]%nat -> cannot_improve eps D d C L op rs) /\
      (forall cfg, tries c cfg -> exists rs0 pts rs',
         mj_insertion eps N D d C L ident fuel cfg = Some (Solution (encode rs0), pts) /\ serves N D d C L eps eps rs0 /\
         not_beaten minimize_K D rs rs0 /\
         mj_run eps N D d C L minimize_K ident fuel cfg = Some (OneSol (encode rs')) /\ serves N D d C L eps eps rs' /\
         not_beaten minimize_K D rs rs').
Proof. exact mj_result2. Qed.
Print Assumptions C52_serves_optimised_and_best.

Example C52_case : 0 <= 0 /\ metric mj_line /\ (forall n, 0 <= mj_two n) /\ mj_two 0%nat = 0 /\ (2 <= 6)%nat.
Proof. split; [lia|]. split; [exact mj_line_metric|]. split; [intros [|n]; cbn; lia|]. split; [reflexivity|lia]. Qed.
Example C52_run : mole_jameson_insertion_init 0 6 mj_line mj_two (Some 5) (Some 100) true (fun _ => Z.of_nat) AllCriteria 50
  = Some (Some (Returns (Some (encode [[1]; [4; 5]; [2; 3]]%nat)))).
Proof. vm_compute. reflexivity. Qed.

(** These criteria, and no others, are tried. *)
Theorem C52_criteria : forall c cfg, In cfg (configurations c) <-> tries c cfg.
Proof. exact configurations_are. Qed.
Print Assumptions C52_criteria.

(** The refinement on its own, of any solution: it ends, keeps the customers and the limits, never uses more
    routes, and never more distance unless that saves a route. *)
Theorem C52_refinement :
  forall eps D d C L,
    0 <= eps -> symmetric D -> triangle D -> D 0%nat 0%nat = 0 -> (forall n, 0 <= d n) -> d 0%nat = 0 ->
    forall minimize_K rs, distinct_customers rs -> concat rs <> [] ->
    exists rs' fuel0,
      (forall fuel_ls fuel, (fuel0 <= fuel_ls)%nat -> (fuel0 <= fuel)%nat ->
         refine_solution eps D d C L minimize_K fuel_ls fuel (encode rs) = Some (Refined (encode rs'))) /\
      Forall (fun r => r <> []) rs' /\ Permutation (concat rs') (concat rs) /\
      (Forall (feasible D d C L eps eps) rs -> Forall (feasible D d C L eps eps) rs') /\
      (length rs' <= length (filter nonempty rs))%nat /\
      (minimize_K = false \/ length rs' = length (filter nonempty rs) -> routes_cost D rs' <= routes_cost D rs) /\
      (forall op, In op [4; 0]%nat -> cannot_improve eps D d C L op rs').
Proof. exact refine_any. Qed.
Print Assumptions C52_refinement.

(** Three routes become two. *)
Example C52_refined : refine_solution 0 mj_line mj_two (Some 8) (Some 100) true 60 60 (encode [[1; 3]; [2; 5]; [4; 6]]%nat)
  = Some (Refined (encode [[1; 2; 3; 5]; [4; 6]]%nat)).
Proof. vm_compute. reflexivity. Qed.

(** With minimize_K=False, emptying the least loaded route is never accepted: what the routes that take over its
    customers cost is compared with zero, not with the cost of the route that disappears.  Here two routes to the same
    place stay two although one would cost half as much and be feasible. *)
Definition same_place : matrix := fun i j => if Nat.eqb i 0 then (if Nat.eqb j 0 then 0 else 10) else if Nat.eqb j 0 then 10 else 0.
Theorem C52_routes_emptied_refuted :
  exists D d rs rs',
    metric D /\ (forall n, 0 <= d n) /\ d 0%nat = 0 /\ distinct_customers rs /\
    (forall fuel_ls fuel, (20 <= fuel_ls)%nat -> (20 <= fuel)%nat ->
       refine_solution 0 D d None None false fuel_ls fuel (encode rs) = Some (Refined (encode rs))) /\
    Permutation (concat rs') (concat rs) /\ routes_cost D rs' < routes_cost D rs.
Proof.
  exists same_place, mj_two, [[1; 2]; [3; 4]]%nat, [[3; 4; 1; 2]]%nat.
  split; [split; [|split]; [intros [|i]; reflexivity|intros [|i] [|j]; reflexivity|intros [|i] [|j] [|k]; vm_compute; discriminate]|].
  split; [intros [|n]; cbn; lia|]. split; [reflexivity|].
  split; [split; [repeat constructor; cbn; intuition discriminate|repeat constructor; discriminate]|]. split.
  - intros fl fuel H1 H2. replace fl with (20 + (fl - 20))%nat by lia. replace fuel with (20 + (fuel - 20))%nat by lia.
    generalize (fl - 20)%nat (fuel - 20)%nat. intros a b. vm_compute. reflexivity.
  - split; [|reflexivity]. cbn. change [1; 2; 3; 4]%nat with ([1; 2] ++ [3; 4])%nat. change [3; 4; 1; 2]%nat with ([3; 4] ++ [1; 2])%nat. apply Permutation_app_comm.
Qed.
Print Assumptions C52_routes_emptied_refuted.

(** That is so for all inputs: redistribution (of the customers of [r1] to the routes [rs]) never has a negative delta. *)
Theorem C52_redistribution_never_pays :
  forall eps D d C L first bd level r1 rs rd1 rds rds' delta,
    triangle D -> rd_route rd1 = wrap r1 -> Forall2 (exact_rd D d C) rs rds ->
    do_redistribute_move eps rd1 rds D d C L first bd level = Some (rds', delta) -> 0 <= delta.
Proof. exact redistribute_delta. Qed.
Print Assumptions C52_redistribution_never_pays.

Example C52_redistribution : exists rds', do_redistribute_move 0 (M_routedata.mkrd (wrap [1; 2]%nat) 20 (Some 4)) [M_routedata.mkrd (wrap [3; 4]%nat) 20 (Some 4)]
  same_place mj_two None None true None 0 = Some (rds', 0).
Proof. eexists. vm_compute. reflexivity. Qed.

(** Without customers: IndexError. *)
Theorem C52_no_customers_refuted :
  forall eps D d C L minimize_K ident c fuel, mole_jameson_insertion_init eps 1 D d C L minimize_K ident c fuel = Some None.
Proof. exact mj_nobody. Qed.
Print Assumptions C52_no_customers_refuted.

(** ** C53 *)

(** Interrupted in the main loop of the insertion for criterion [cfg] (except between completing a route and replacing
    it, and inside the callback): KeyboardInterrupt with a solution that serves everyone within the limits and is not
    beaten by what the criteria before [cfg] gave, nor by what the interrupted insertion passed on. *)
Theorem C53_interrupted_partial :
  forall eps N D d C L minimize_K,
    0 <= eps -> metric D -> (forall n, 0 <= d n) -> d 0%nat = 0 -> (2 <= N)%nat -> served_alone N D d C L eps eps ->
    exists fuel0, forall fuel, (fuel0 <= fuel)%nat -> forall ident order c before cfg after o pts p s,
    (forall l, Permutation (order l) l) -> configurations c = before ++ cfg :: after ->
    mj_insertion eps N D d C L ident fuel cfg = Some (o, pts) -> In (p, s) pts -> p <> RouteCompleted -> p <> SeedTaken ->
    exists ss, mj_runs eps N D d C L minimize_K ident fuel before = Some (Some (map encode ss)) /\
    exists rs,
      (forall later, mj_choose D minimize_K None (map Finished (map encode ss) ++ WithSolution (handler_sol order s) :: later)
                     = Interrupts (Some (encode rs))) /\
      serves N D d C L eps eps rs /\ (forall rs', In rs' ss -> not_beaten minimize_K D rs rs') /\
      (exists rs', handler_sol order s = encode rs' /\ not_beaten minimize_K D rs rs').
Proof. exact mj_interrupted. Qed.
Print Assumptions C53_interrupted_partial.

Example C53_points : exists o pts s, mj_insertion 0 6 mj_line mj_two (Some 5) (Some 100) (fun _ => Z.of_nat) 50 (8, 4, Strain) = Some (o, pts) /\
  In (CustomerInserted, s) pts /\ handler_sol (fun l => l) s = encode [[4; 5]; [1]; [2]; [3]]%nat.
Proof. eexists. eexists. eexists. split; [vm_compute; reflexivity|]. split; [right; left; reflexivity|]. vm_compute. reflexivity. Qed.

(** Interrupts anywhere else in a criterion (sorting the seeds, the refinement) are swallowed: the call goes on with the
    next criterion and returns. *)
Theorem C53_interrupts_swallowed_refuted :
  forall D minimize_K evs best, (forall s, ~ In (WithSolution s) evs) -> exists r, mj_choose D minimize_K best evs = Returns r.
Proof. exact mj_swallows. Qed.
Print Assumptions C53_interrupts_swallowed_refuted.

(** Still, if any criterion gives a solution, the best one given is returned or, when the insertion is interrupted
    for a later one, handed over. *)
Theorem C53_best_of_the_finished :
  forall D minimize_K evs,
    Forall proper evs -> Forall (fun e => ~ interrupts e) evs -> (exists e s, In e evs /\ given e = Some s) ->
    exists rs, mj_choose D minimize_K None evs = Returns (Some (encode rs)) /\ (exists e, In e evs /\ given e = Some (encode rs)) /\
      forall e rs', In e evs -> given e = Some (encode rs') -> Forall customers_only rs' -> not_beaten minimize_K D rs rs'.
Proof. exact mj_ends_with. Qed.
Print Assumptions C53_best_of_the_finished.
Theorem C53_best_when_interrupted :
  forall D minimize_K evs s later,
    Forall proper evs -> Forall (fun e => ~ interrupts e) evs -> proper (WithSolution s) ->
    exists rs, mj_choose D minimize_K None (evs ++ WithSolution s :: later) = Interrupts (Some (encode rs)) /\
      (exists e, In e (evs ++ [WithSolution s]) /\ given e = Some (encode rs)) /\
      forall e rs', In e (evs ++ [WithSolution s]) -> given e = Some (encode rs') -> Forall customers_only rs' -> not_beaten minimize_K D rs rs'.
Proof. exact mj_interrupted_with. Qed.
Print Assumptions C53_best_when_interrupted.
Example C53_later_solution : mj_choose mj_line false None [Bare None; Finished (encode [[1]; [2]]%nat); Bare None; Finished (encode [[1; 2]]%nat)]
  = Returns (Some (encode [[1; 2]]%nat)).
Proof. reflexivity. Qed.

(** With a single criterion, None is returned. *)
Example C53_returns_none : mj_choose mj_line false None [Bare None] = Returns None.
Proof. reflexivity. Qed.

(** Interrupted while the callback works, the route passed on can be longer than L: the check comes last. *)
Theorem C53_interrupt_in_callback_refuted :
  exists o pts s s' rs,
    metric apart /\ served_alone 4 apart (fun _ => 0) None (Some 35) 0 0 /\
    mj_insertion 0 4 apart (fun _ => 0) None (Some 35) (fun _ => Z.of_nat) 20 (0, 0, Farthest) = Some (o, pts) /\
    In (TurnBegins, s) pts /\ In s' (turn_windows 0 apart (fun _ => 0) None (Some 35) (fun _ => Z.of_nat) 20 (0, 0, Farthest) 0 s) /\
    handler_sol (fun l => l) s' = encode rs /\ covers 4 rs /\ ~ Forall (feasible apart (fun _ => 0) None (Some 35) 0 0) rs.
Proof.
  eexists. eexists. eexists. eexists. exists [[1; 3; 2]]%nat. split; [exact apart_metric|]. split; [|split; [vm_compute; reflexivity|]].
  - intros i Hi. assert (H : i = 1%nat \/ i = 2%nat \/ i = 3%nat) by lia. destruct H as [->|[->| ->]]; (split; [exact I|vm_compute; intros _; discriminate]).
  - split; [do 3 right; left; reflexivity|]. split; [vm_compute; left; reflexivity|]. split; [vm_compute; reflexivity|]. split.
    + unfold covers. cbn. apply perm_skip, perm_swap.
    + intro H. apply Forall_inv in H as [_ H]. vm_compute in H. apply H; [discriminate|reflexivity].
Qed.
Print Assumptions C53_interrupt_in_callback_refuted.
