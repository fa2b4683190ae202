(** * C122: the Lagrangean 3-opt* heuristic with its default parameters *)
From Verif Require Import Spec Spec_inter Spec_savings Spec_rfcs Spec_all Spec_lr3opt2 PyBase M_util M_psavings M_3optstar M_lr3opt M_lr3opt2 M_lr3opt3 P_lr3opt8.
From Coq Require Import ZifyBool ZifyNat Lia List Permutation.
Import ListNotations.
Local Open Scope Z_scope.

(** The multipliers lC/K and lL/K are average(d)/(20*max(D)) and average(distance to nearest neighbor)/(10*max(D)), and
    only the limits that are set have one. *)
Theorem C122_multipliers : forall N D d C L f, (2 <= N)%nat -> solver N D f ->
  exists m near, largest N D m /\ (forall j, (j < N)%nat -> nearest N D j (near j)) /\
    exists K lC lL, default_multipliers N D d C L (init_with_tsp N f) = (K, lC, lL) /\
      (limit_set C \/ limit_set L -> K = 20 * Z.of_nat N * m) /\ (~ limit_set C -> ~ limit_set L -> K = 1) /\
      (limit_set C -> lC = Some (sumZ (map d (seq 0 N)))) /\ (~ limit_set C -> lC = None) /\
      (limit_set L -> lL = Some (2 * sumZ (map near (seq 0 N)))) /\ (~ limit_set L -> lL = None).
Proof. exact default_spec. Qed.
Print Assumptions C122_multipliers.

(** Without limits, in a metric with a place that is not shared, and with a capacity, a demand and multipliers that
    reach infinity, the call ends with a feasible solution. *)
Theorem C122_ends_partial : forall eps N D d C L inf f, Spec_all.problem N D d C L eps -> solver N D f -> lagrangean N D d C L inf ->
  exists rs, serves N D d C L eps eps rs /\ ends_with (fun fuel => lr3opt_default eps eps N D d C L inf f fuel None) (LrReturn (Some (encode rs))).
Proof. exact default_ends. Qed.
Print Assumptions C122_ends_partial.

(** Whatever it returns, or passes on when it is interrupted after the tour is there, is a feasible solution. *)
Theorem C122_result : forall eps N D d C L inf f, Spec_all.problem N D d C L eps -> solver N D f -> forall fuel stop o,
  lr3opt_default eps eps N D d C L inf f fuel stop = Some o ->
  exists rs, serves N D d C L eps eps rs /\ (o = LrReturn (Some (encode rs)) \/ o = LrInterrupt (Some (encode rs))).
Proof. exact default_result. Qed.
Print Assumptions C122_result.

(** With the length limit only and no place for one node alone the multiplier is zero: when the tour is best
    and too long, the call never ends, although feasible solutions may be there. *)
Theorem C122_twins_refuted : forall eps N D d C L inf f tour,
  (2 <= N)%nat -> 0 <= eps -> symmetric D -> nonneg_matrix D -> D 0%nat 0%nat = 0 -> (forall n, 0 <= d n) ->
  solver N D f -> ~ limit_set C -> within L eps 0 -> twins N D ->
  fst (f (seq 0 N)) = 0%nat :: tour ++ [0%nat] -> (forall rs, covers N rs -> route_cost D tour <= routes_cost D rs) -> ~ within L eps (route_cost D tour) ->
  forall fuel, lr3opt_default eps eps N D d C L inf f fuel None = None.
Proof. exact twins_forever. Qed.
Print Assumptions C122_twins_refuted.

(** The number of vehicles cannot be minimized. *)
Theorem C122_refused : forall eps N D d C L inf f fuel stop,
  lr3opt_call eps eps N D d C L inf f true fuel stop = Some LrNotImplemented /\
  forall o, lr3opt_call eps eps N D d C L inf f false fuel stop = Some (LrEnds o) <-> lr3opt_default eps eps N D d C L inf f fuel stop = Some o.
Proof.
  intros. split; [reflexivity|]. intros o. unfold lr3opt_call. destruct (lr3opt_default _ _ _ _ _ _ _ _ _ _) as [o'|]; cbn [option_map]; split; intros H; congruence.
Qed.
Print Assumptions C122_refused.

(** A solver that keeps the nodes in order *)
Definition in_order (D : matrix) : tsp := fun l => match l with [] => ([], 0) | x :: _ => (l ++ [x], path_cost D (l ++ [x])) end.
Example in_order_solver : forall N D, solver N D (in_order D).
Proof. intros N D l Hl _ _. exists l. split; [reflexivity|apply Permutation_refl]. Qed.
(** Five customers on a line, two at each end and one at the depot: the tour costs 20, the limit is 10. *)
Definition tw_pos (n : nat) : Z := nth n [0; 0; 5; 5; -5; -5] 0.
Definition tw_line : matrix := fun i j => Z.abs (tw_pos i - tw_pos j).
Example C122_twins_hypotheses :
  Spec_all.problem 6 tw_line (fun _ => 0) None (Some 10) 0 /\ twins 6 tw_line /\
  (forall rs, covers 6 rs -> route_cost tw_line [1; 2; 3; 4; 5]%nat <= routes_cost tw_line rs) /\ ~ within (Some 10) 0 (route_cost tw_line [1; 2; 3; 4; 5]%nat) /\
  serves 6 tw_line (fun _ => 0) None (Some 10) 0 0 [[1; 2; 3]; [4; 5]]%nat.
Proof.
  split; [|split; [|split; [|split]]].
  - constructor; try lia; try (intros i j; unfold tw_line; lia); [reflexivity|]. intros i Hi. do 6 (destruct i as [|i]; [try lia; vm_compute; repeat split; intros; discriminate|]); lia.
  - intros j Hj. exists (nth j [1; 0; 3; 2; 5; 4] 0)%nat. do 6 (destruct j as [|j]; [cbn; repeat split; lia|]). lia.
  - intros rs Hc. change (route_cost tw_line [1; 2; 3; 4; 5]%nat) with 20.
    rewrite (routes_add tw_line (fun i j => Z.abs (Z.max 0 (tw_pos i) - Z.max 0 (tw_pos j))) (fun i j => Z.abs (Z.min 0 (tw_pos i) - Z.min 0 (tw_pos j)))) by (intros i j; unfold tw_line; lia).
    pose proof (there_and_back (fun i j => Z.abs (Z.max 0 (tw_pos i) - Z.max 0 (tw_pos j))) 6 rs 2 ltac:(intros i j; lia) ltac:(intros i j k; lia) ltac:(intros i j; lia) Hc ltac:(lia)) as H1.
    pose proof (there_and_back (fun i j => Z.abs (Z.min 0 (tw_pos i) - Z.min 0 (tw_pos j))) 6 rs 4 ltac:(intros i j; cbv beta; lia) ltac:(intros i j k; cbv beta; lia) ltac:(intros i j; cbv beta; lia) Hc ltac:(lia)) as H2.
    cbv beta in H1, H2. change (2 * Z.abs (Z.max 0 (tw_pos 0) - Z.max 0 (tw_pos 2))) with 10 in H1. change (2 * Z.abs (Z.min 0 (tw_pos 0) - Z.min 0 (tw_pos 4))) with 10 in H2. lia.
  - intros H. vm_compute in H. specialize (H ltac:(discriminate)). now apply H.
  - split; [apply Permutation_refl|]. split; [repeat constructor; discriminate|]. repeat constructor; vm_compute; try exact I; intros; discriminate.
Qed.
(** The same line with other places: the call ends. *)
Definition ap_pos (n : nat) : Z := nth n [0; 4; 5; -4; -5] 0.
Definition ap_line : matrix := fun i j => Z.abs (ap_pos i - ap_pos j).
Example C122_case :
  Spec_all.problem 5 ap_line (fun n => if Nat.eqb n 0 then 0 else 1) (Some 2) (Some 12) 0 /\
  lagrangean 5 ap_line (fun n => if Nat.eqb n 0 then 0 else 1) (Some 2) (Some 12) (fun _ => false) /\
  default_multipliers 5 ap_line (fun n => if Nat.eqb n 0 then 0 else 1) (Some 2) (Some 12) (init_with_tsp 5 (in_order ap_line)) = (1000, Some 4, Some 16) /\
  lr3opt_default 0 0 5 ap_line (fun n => if Nat.eqb n 0 then 0 else 1) (Some 2) (Some 12) (fun _ => false) (in_order ap_line) 80 None
    = Some (LrReturn (Some (encode [[1; 2]; [3; 4]]%nat))).
Proof.
  split; [|split; [|split; vm_compute; reflexivity]].
  - constructor; try lia; try (intros i j; unfold ap_line; lia); [reflexivity|intros n; destruct (Nat.eqb n 0); lia|reflexivity|].
    intros i Hi. do 5 (destruct i as [|i]; [try lia; vm_compute; repeat split; intros; discriminate|]); lia.
  - right. left. split; [intros i j k; unfold ap_line; lia|]. split; [exists 0%nat, 1%nat; vm_compute; repeat split; lia|].
    intros _. exists 2%nat. split; [lia|]. intros i Hi Hn. do 5 (destruct i as [|i]; [vm_compute; try reflexivity; now destruct Hn|]). lia.
Qed.
