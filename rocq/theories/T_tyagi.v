(** * Properties C59, C60 and C61: Tyagi's heuristic *)
From Verif Require Import Spec Spec_inter Spec_savings Spec_nn Spec_rfcs Spec_tyagi PyBase M_util M_psavings M_nn M_intra M_rfcs M_tyagi P_tyagi4.
Require Import Lia.

(** Customers on a line and in a grid *)
Definition on_line (pos : list Z) : matrix := fun i j => Z.abs (nth i pos 0 - nth j pos 0).
Definition in_grid (pts : list (Z * Z)) : matrix :=
  fun i j => Z.abs (fst (nth i pts (0, 0)) - fst (nth j pts (0, 0))) + Z.abs (snd (nth i pts (0, 0)) - snd (nth j pts (0, 0))).
Definition demands_of (l : list Z) : demands := fun i => nth i l 0.

(** Six customers on a line *)
Definition D7 : matrix := on_line [0; 2; 4; 6; -3; 7; -5].
Definition d7 : demands := demands_of [0; 2; 1; 2; 1; 3; 4].
Example D7_self_first : self_first 7 D7.
Proof. intros i j Hi Hj Hne. left. do 7 (destruct i as [|i]; [do 7 (destruct j as [|j]; [first [reflexivity | congruence]|]); lia|]). lia. Qed.
Example D7_alone : served_alone 7 D7 d7 (Some 5) (Some 30) 0 0.
Proof. intros i Hi. do 7 (destruct i as [|i]; [first [lia | split; vm_compute; intros _; discriminate]|]). lia. Qed.

(** ** C59 *)

(** Everybody is served once on routes within the limits, and there are no more routes than in the
    grouping of all customers.  Missing: an instance with one customer and a capacity, see below. *)
Theorem C59_serves_everyone_partial :
  forall ceps seps N D d C L only_large try_all g f,
    d 0%nat = 0 -> (forall c, C = Some c -> 0 <= c) -> ((3 <= N)%nat \/ (2 <= N)%nat /\ ~ limit_set C) ->
    self_first N D -> served_alone N D d C L ceps seps ->
    solver N D f -> (limit_set L -> shortens N D f) ->
    exists rs first fuel0,
      grouped N D d C L ceps seps [] true try_all first /\ serves N D d C L ceps seps rs /\ (length rs <= length first)%nat /\
      forall fuel, (fuel0 <= fuel)%nat ->
        tyagi_init ceps seps N D d C L only_large try_all g f fuel = Some (TyReturn (Some (encode rs))).
Proof. exact served. Qed.
Print Assumptions C59_serves_everyone_partial.

(** With the bundled TSP solver *)
Theorem C59_bundled_solver_partial :
  forall ceps seps N D d C L only_large try_all g eps do2 do3,
    0 <= eps -> symmetric D ->
    d 0%nat = 0 -> (forall c, C = Some c -> 0 <= c) -> ((3 <= N)%nat \/ (2 <= N)%nat /\ ~ limit_set C) ->
    self_first N D -> served_alone N D d C L ceps seps ->
    exists fuel1, forall fuel2, (fuel1 <= fuel2)%nat ->
    exists rs fuel0, serves N D d C L ceps seps rs /\
      forall fuel, (fuel0 <= fuel)%nat ->
        tyagi_init ceps seps N D d C L only_large try_all g (as_tsp (fun l => solve_tsp_ropt eps fuel2 D l None do2 do3)) fuel
        = Some (TyReturn (Some (encode rs))).
Proof. exact served_ropt. Qed.
Print Assumptions C59_bundled_solver_partial.

Example C59_run :
  tyagi_init 0 0 7 D7 d7 (Some 5) (Some 30) false true MaxDemand (as_tsp (fun l => solve_tsp_ropt 0 50 D7 l None true true)) 60
  = Some (TyReturn (Some (encode [[1; 2; 3]; [4; 6]; [5]]%nat))).
Proof. vm_compute. reflexivity. Qed.

(** One customer and a capacity: an AttributeError instead of the only solution. *)
Theorem C59_one_customer_refuted :
  exists D d C, self_first 2 D /\ served_alone 2 D d C None 0 0 /\ d 0%nat = 0 /\
    forall f fuel, (10 <= fuel)%nat -> tyagi_init 0 0 2 D d C None false true MaxDemand f fuel = Some TyRaises.
Proof.
  exists (on_line [0; 3]), (demands_of [0; 2]), (Some 5). split; [|split; [|split; [reflexivity|]]].
  - intros i j Hi Hj Hne. left. do 2 (destruct i as [|i]; [do 2 (destruct j as [|j]; [first [reflexivity | congruence]|]); lia|]). lia.
  - intros i Hi. do 2 (destruct i as [|i]; [first [lia | split; [vm_compute; intros _; discriminate|exact I]]|]). lia.
  - intros f fuel Hf. replace fuel with (10 + (fuel - 10))%nat by lia. generalize (fuel - 10)%nat. intros k. vm_compute. reflexivity.
Qed.
Print Assumptions C59_one_customer_refuted.

(** A TSP solver that lengthens a route breaks the length limit: the result is not checked again. *)
Theorem C59_lengthening_solver_refuted :
  exists N D d L f, self_first N D /\ served_alone N D d None L 0 0 /\ solver N D f /\ d 0%nat = 0 /\ (3 <= N)%nat /\
    exists rs, (forall fuel, (20 <= fuel)%nat -> tyagi_init 0 0 N D d None L false true MaxDemand f fuel = Some (TyReturn (Some (encode rs)))) /\
      ~ Forall (feasible D d None L 0 0) rs.
Proof.
  exists 4%nat, (on_line [0; 1; 2; 3]), (fun _ => 0), (Some 6),
    (fun l => let t := match l with [_; a; b; c] => [b; a; c]%nat | _ => tl l end in (wrap t, route_cost (on_line [0; 1; 2; 3]) t)).
  split; [|split; [|split; [|split; [reflexivity|split; [lia|]]]]].
  - intros i j Hi Hj Hne. left. do 4 (destruct i as [|i]; [do 4 (destruct j as [|j]; [first [reflexivity | congruence]|]); lia|]). lia.
  - intros i Hi. split; [exact I|]. do 4 (destruct i as [|i]; [first [lia | vm_compute; intros _; discriminate]|]). lia.
  - intros l _ _ _. destruct l as [|a [|b [|c [|e l]]]]; eexists; (split; [reflexivity|]); try reflexivity.
    cbn. apply perm_swap.
  - exists [[2; 1; 3]%nat]. split.
    + intros fuel Hf. replace fuel with (20 + (fuel - 20))%nat by lia. generalize (fuel - 20)%nat. intros k. vm_compute. reflexivity.
    + intros H. inversion H as [|? ? [_ H1] _]; subst. specialize (H1 ltac:(discriminate)). vm_compute in H1. apply H1. reflexivity.
Qed.
Print Assumptions C59_lengthening_solver_refuted.

(** ** C60 *)

(** The grouping follows the rule of Spec_tyagi until nobody is left. *)
Theorem C60_grouping_rule_partial :
  forall ceps seps N D d C L try_all ends_only forbidden,
    (2 <= N)%nat -> self_first N D ->
    exists rs pts fuel0,
      grouped N D d C L ceps seps forbidden ends_only try_all rs /\
      Permutation (concat rs) (filter (fun j => negb (existsb (Nat.eqb j) forbidden)) (seq 1 (N - 1))) /\ Forall (fun r => r <> []) rs /\
      (forall r, In r rs -> (2 <= length r)%nat -> feasible D d C L ceps seps r) /\
      forall fuel, (fuel0 <= fuel)%nat ->
        ty_group ceps seps N D d C L try_all fuel ends_only forbidden = Some (match rs with [] => None | _ => Some (encode rs) end, pts).
Proof. exact group_follows. Qed.
Print Assumptions C60_grouping_rule_partial.

(** Without a capacity the result is that grouping, each route in the order the TSP solver gives it. *)
Theorem C60_without_capacity_partial :
  forall ceps seps N D d C L only_large try_all g,
    ~ limit_set C -> (2 <= N)%nat -> self_first N D -> served_alone N D d C L ceps seps ->
    exists first fuel0,
      grouped N D d C L ceps seps [] true try_all first /\
      forall f, solver N D f ->
        exists rs, Forall2 (fun r r' => fst (f (0%nat :: r)) = wrap r' /\ Permutation r' r) first rs /\
          forall fuel, (fuel0 <= fuel)%nat ->
            tyagi_init ceps seps N D d C L only_large try_all g f fuel = Some (TyReturn (Some (encode rs))).
Proof. exact plain_result. Qed.
Print Assumptions C60_without_capacity_partial.

Example C60_run : exists pts,
  ty_group 0 0 7 D7 d7 (Some 5) (Some 30) true 60 true [4%nat] = Some (Some (encode [[1; 2; 3]; [6]; [5]]%nat), pts).
Proof. eexists. vm_compute. reflexivity. Qed.

(** The next group is to begin with the customer nearest to the depot.  After an interchange it need not. *)
Theorem C60_nearest_after_interchange_refuted :
  exists N D d C, self_first N D /\ served_alone N D d C None 0 0 /\
    exists pts, ty_group 0 0 N D d C None true 40 true [] = Some (Some (encode [[1; 3]; [2; 4]]%nat), pts) /\ D 0%nat 4%nat < D 0%nat 2%nat.
Proof.
  exists 5%nat, (on_line [0; 2; 4; 6; -3]), (demands_of [0; 2; 1; 2; 1]), (Some 4). split; [|split].
  - intros i j Hi Hj Hne. left. do 5 (destruct i as [|i]; [do 5 (destruct j as [|j]; [first [reflexivity | congruence]|]); lia|]). lia.
  - intros i Hi. split; [|exact I]. do 5 (destruct i as [|i]; [first [lia | vm_compute; intros _; discriminate]|]). lia.
  - eexists. split; [vm_compute; reflexivity|]. reflexivity.
Qed.
Print Assumptions C60_nearest_after_interchange_refuted.

(** The interchange is to be the best one.  It is the last one tried that improves the group. *)
Theorem C60_best_interchange_refuted :
  exists N D d C, self_first N D /\ served_alone N D d C None 0 0 /\
    (exists pts, ty_group 0 0 N D d C None true 40 true [] = Some (Some (encode [[1; 3]; [2]]%nat), pts)) /\
    interchange D d C None 0 0 true [1; 2]%nat 1 3 [3; 2]%nat /\ interchange D d C None 0 0 true [1; 2]%nat 2 3 [1; 3]%nat /\
    demand d [1; 3]%nat < demand d [3; 2]%nat.
Proof.
  exists 4%nat, (on_line [0; 1; 2; 3]), (demands_of [0; 1; 2; 3]), (Some 5). split; [|split; [|split; [|split; [|split]]]].
  - intros i j Hi Hj Hne. left. do 4 (destruct i as [|i]; [do 4 (destruct j as [|j]; [first [reflexivity | congruence]|]); lia|]). lia.
  - intros i Hi. split; [|exact I]. do 4 (destruct i as [|i]; [first [lia | vm_compute; intros _; discriminate]|]). lia.
  - eexists. vm_compute. reflexivity.
  - split; [exists [], [2%nat]; auto|]. split; [split; [vm_compute; intros _; discriminate|exact I]|]. left. split; [cbn; lia|reflexivity].
  - split; [exists [1%nat], []; auto|]. split; [split; [vm_compute; intros _; discriminate|exact I]|]. left. split; [cbn; lia|reflexivity].
  - reflexivity.
Qed.
Print Assumptions C60_best_interchange_refuted.

(** ** C61 *)

(** With a capacity the result is the chosen grouping, each route in the order the TSP solver gives it. *)
Theorem C61_chosen_grouping_partial :
  forall ceps seps N D d C L only_large try_all g c,
    C = Some c -> 0 < c -> d 0%nat = 0 -> (3 <= N)%nat -> self_first N D -> served_alone N D d C L ceps seps ->
    exists first gr chosen fuel0,
      grouped N D d C L ceps seps [] true try_all first /\
      (forall x, (1 <= x < N)%nat -> grouped N D d C L ceps seps [x] false try_all (gr x)) /\
      chosen_grouping N D d c only_large g first gr chosen /\
      forall f, solver N D f ->
        exists rs, Forall2 (fun r r' => fst (f (0%nat :: r)) = wrap r' /\ Permutation r' r) chosen rs /\
          forall fuel, (fuel0 <= fuel)%nat ->
            tyagi_init ceps seps N D d C L only_large try_all g f fuel = Some (TyReturn (Some (encode rs))).
Proof. exact chosen_result. Qed.
Print Assumptions C61_chosen_grouping_partial.

(** An interrupt hands over a solution that serves everybody; within the first grouping one is repeated at
    one point. *)
Theorem C61_interrupt_partial :
  forall ceps seps N D d C L only_large try_all g,
    d 0%nat = 0 -> (forall c, C = Some c -> 0 <= c) -> ((3 <= N)%nat \/ (2 <= N)%nat /\ ~ limit_set C) ->
    self_first N D -> served_alone N D d C L ceps seps ->
    exists pts fuel0,
      (forall p, In p pts ->
        (fst p <> N_stored -> exists rs, nn_interrupted N p = encode rs /\ serves N D d C L ceps seps rs) /\
        (exists rs, nn_interrupted N p = encode rs /\ (forall c, (1 <= c < N)%nat <-> In c (concat rs)) /\ Forall (fun r => r <> []) rs /\
           Forall (feasible D d C L ceps seps) rs)) /\
      forall fuel, (fuel0 <= fuel)%nat ->
        (exists s, ty_group ceps seps N D d C L try_all fuel true [] = Some (Some s, pts)) /\
        exists sols, tyagi_interrupts ceps seps N D d C L only_large try_all g fuel = Some (map (nn_interrupted N) pts ++ sols) /\
          sols <> [] /\ Forall (fun s => exists rs, s = encode rs /\ serves N D d C L ceps seps rs) sols.
Proof. exact ty_interrupts_spec. Qed.
Print Assumptions C61_interrupt_partial.

Example C61_run : exists pts sols,
  ty_group 0 0 4 (in_grid [(3, 4); (4, 6); (4, 4); (3, 0)]) (demands_of [0; 4; 1; 2]) (Some 5) None true 40 true [] = Some (Some (encode [[2; 1]; [3]]%nat), pts) /\
  tyagi_interrupts 0 0 4 (in_grid [(3, 4); (4, 6); (4, 4); (3, 0)]) (demands_of [0; 4; 1; 2]) (Some 5) None false true MinPenalty 40
  = Some (sols ++ [encode [[2; 3]; [1]]; encode [[2; 1]; [3]]]%nat).
Proof.
  eexists. eexists [_; _; _; _; _; _; _; _; _; _; _; _]. split; vm_compute; reflexivity.
Qed.

(** select_grouping="min_penalty" is to choose the grouping with the least unused capacity times distance. *)
Definition unused_times_distance (D : matrix) (d : demands) (c : Z) (rs : list (list nat)) : Z :=
  sumZ (map (fun r => (c - demand d r) * route_cost D r) rs).
Theorem C61_min_penalty_refuted :
  exists N D d c, self_first N D /\ served_alone N D d (Some c) None 0 0 /\
    (exists pts, ty_group 0 0 N D d (Some c) None true 40 true [] = Some (Some (encode [[2; 1]; [3]]%nat), pts)) /\
    (forall fuel, (40 <= fuel)%nat -> tyagi_init 0 0 N D d (Some c) None false true MinPenalty (inorder D) fuel = Some (TyReturn (Some (encode [[2; 3]; [1]]%nat)))) /\
    unused_times_distance D d c [[2; 1]; [3]]%nat < unused_times_distance D d c [[2; 3]; [1]]%nat.
Proof.
  exists 4%nat, (in_grid [(3, 4); (4, 6); (4, 4); (3, 0)]), (demands_of [0; 4; 1; 2]), 5. split; [|split; [|split; [|split]]].
  - intros i j Hi Hj Hne. left. do 4 (destruct i as [|i]; [do 4 (destruct j as [|j]; [first [reflexivity | congruence]|]); lia|]). lia.
  - intros i Hi. split; [|exact I]. do 4 (destruct i as [|i]; [first [lia | vm_compute; intros _; discriminate]|]). lia.
  - eexists. vm_compute. reflexivity.
  - intros fuel Hf. replace fuel with (40 + (fuel - 40))%nat by lia. generalize (fuel - 40)%nat. intros k. vm_compute. reflexivity.
  - reflexivity.
Qed.
Print Assumptions C61_min_penalty_refuted.
