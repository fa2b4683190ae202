(** * Properties C56-C58: the Lagrangean 3-opt* heuristic

    The multipliers are lC/K and lL/K.  [inf] tells which multiplier counts as infinite. *)
From Verif Require Import Spec Spec_inter Spec_savings Spec_3optstar Spec_lr3opt PyBase M_util M_psavings M_3optstar M_lr3opt M_lr3opt2 P_lr3opt6 P_lr3opt7.

(** ** C56: what is returned or passed on with an interrupt *)

(** Non-empty feasible routes that serve every customer once, whatever the multipliers, the
    safeguard and the moment of the interrupt. *)
Theorem C56_complete_and_feasible :
  forall ceps seps N D d C L K lC lL inf postopt max_incs rs0 fuel stop o,
    (2 <= N)%nat -> 0 <= seps -> symmetric D -> nonneg_matrix D -> (forall n, 0 <= d n) ->
    served_alone N D d C L ceps seps -> covers N rs0 ->
    lr3opt_init ceps seps D d C L K lC lL inf postopt max_incs (Some (encode rs0)) fuel stop = Some o ->
    exists rs, serves N D d C L ceps seps rs /\ (o = LrReturn (Some (encode rs)) \/ o = LrInterrupt (Some (encode rs))).
Proof. exact lr_result. Qed.
Print Assumptions C56_complete_and_feasible.

(** An interrupt while the initial solution is built passes on no solution. *)
Theorem C56_early_interrupt_refuted :
  forall ceps seps D d C L K lC lL inf postopt max_incs fuel stop,
    lr3opt_init ceps seps D d C L K lC lL inf postopt max_incs None fuel stop = Some (LrInterrupt None).
Proof. exact (fun _ _ _ _ _ _ _ _ _ _ _ _ _ _ => eq_refl). Qed.
Print Assumptions C56_early_interrupt_refuted.

(** ** C57: the Lagrangean search *)

(** The move taken changes the Lagrangean objective by the delta returned, and improves it by more
    than the tolerance; it is a 3-opt* move, up to empty routes. *)
Theorem C57_move_priced :
  forall ceps seps D d C L K lC lL first best rs sol' delta,
    0 <= ceps -> 0 <= seps -> 0 <= K -> 0 <= lC -> 0 <= lL -> symmetric D -> D 0%nat 0%nat = 0 -> within C ceps 0 -> within L seps 0 ->
    Forall customers_only rs ->
    do_3optstar_with (check_lr3opt_move ceps seps D C L K lC lL) (encode rs) D d first best = Some (sol', delta) ->
    exists rs' rs'', sol' = encode rs' /\ Forall customers_only rs' /\ Permutation (concat rs') (concat rs) /\
      relaxed K lC lL D d C L ceps seps rs' = relaxed K lC lL D d C L ceps seps rs + delta /\
      delta + K * seps < match best with Some b => b | None => 0 end /\
      neighbour_3optstar (encode rs) (encode rs'') /\ Forall customers_only rs'' /\ filter nonempty rs' = filter nonempty rs''.
Proof. exact lr_move_priced. Qed.
Print Assumptions C57_move_priced.

(** No move is taken only if no 3-opt* neighbour has a better Lagrangean objective. *)
Theorem C57_relaxed_optimum :
  forall ceps seps D d C L K lC lL first rs,
    0 <= ceps -> 0 <= seps -> 0 <= K -> 0 <= lC -> 0 <= lL -> symmetric D -> within C ceps 0 -> within L seps 0 ->
    Forall customers_only rs ->
    do_3optstar_with (check_lr3opt_move ceps seps D C L K lC lL) (encode rs) D d first None = None ->
    forall rs', Forall customers_only rs' -> neighbour_3optstar (encode rs) (encode rs') ->
      relaxed K lC lL D d C L ceps seps rs <= relaxed K lC lL D d C L ceps seps rs' + K * seps.
Proof. exact lr_move_none. Qed.
Print Assumptions C57_relaxed_optimum.

(** Unless the safeguard repairs a solution, the routes returned are, up to their order and
    direction, a local optimum of the problem itself: no feasible 3-opt* neighbour is
    better by more than the tolerance. *)
Theorem C57_local_optimum :
  forall ceps seps N D d C L K lC lL inf postopt rs0 fuel stop r,
    (2 <= N)%nat -> 0 <= ceps -> 0 <= seps -> 0 < K -> (forall x, lC = Some x -> 0 <= x) -> (forall x, lL = Some x -> 0 <= x) ->
    symmetric D -> nonneg_matrix D -> D 0%nat 0%nat = 0 -> (forall n, 0 <= d n) ->
    served_alone N D d C L ceps seps -> covers N rs0 -> (forall x, inf x = false) ->
    lr3opt_init ceps seps D d C L K lC lL inf postopt None (Some (encode rs0)) fuel stop = Some (LrReturn r) ->
    exists rs ns, r = Some (encode ns) /\ same_routes (filter nonempty rs) ns /\ covers N rs /\ Forall (feasible D d C L ceps seps) rs /\
      forall rs', Forall customers_only rs' -> neighbour_3optstar (encode rs) (encode rs') -> Forall (feasible D d C L ceps seps) rs' ->
        routes_cost D rs <= routes_cost D rs' + seps.
Proof. exact lr_local_optimum. Qed.
Print Assumptions C57_local_optimum.

(** The postoptimisation never finds anything to improve. *)
Theorem C57_postoptimisation_idle :
  forall ceps seps N D d C L K lC lL inf max_incs rs0 fuel r,
    0 <= ceps -> 0 <= seps -> 0 < K -> (forall x, lC = Some x -> 0 <= x) -> (forall x, lL = Some x -> 0 <= x) ->
    symmetric D -> nonneg_matrix D -> D 0%nat 0%nat = 0 -> (forall n, 0 <= d n) -> within C ceps 0 -> within L seps 0 -> covers N rs0 ->
    lr3opt_init ceps seps D d C L K lC lL inf false max_incs (Some (encode rs0)) fuel None = Some (LrReturn r) ->
    lr3opt_init ceps seps D d C L K lC lL inf true max_incs (Some (encode rs0)) (S fuel) None = Some (LrReturn r).
Proof. exact lr_idle. Qed.
Print Assumptions C57_postoptimisation_idle.

(** ** C58: the search ends *)

(** It ends if the number of consecutive doublings is bounded, or if there is a positive multiplier
    for the capacity, as large multipliers count as infinite.  Not every customer needs to be
    servable. *)
Theorem C58_ends_partial :
  forall ceps seps N D d C L K lC lL inf postopt max_incs rs0,
    0 <= ceps -> 0 <= seps -> 0 < K -> (forall x, lC = Some x -> 0 <= x) -> (forall x, lL = Some x -> 0 <= x) ->
    symmetric D -> nonneg_matrix D -> D 0%nat 0%nat = 0 -> (forall n, 0 <= d n) -> within C ceps 0 -> within L seps 0 -> covers N rs0 ->
    (max_incs <> None \/ exists x M, lC = Some x /\ 0 < x /\ forall y, M <= y -> inf y = true) ->
    exists fuel0 r, forall fuel, (fuel0 <= fuel)%nat ->
      lr3opt_init ceps seps D d C L K lC lL inf postopt max_incs (Some (encode rs0)) fuel None = Some (LrReturn r).
Proof. exact lr_terminates. Qed.
Print Assumptions C58_ends_partial.

(** In a metric where every customer can be served alone it ends with a feasible solution, if
    the multiplier of each limit is positive; [inf] and the bound to the doublings do not matter. *)
Theorem C58_ends_metric :
  forall ceps seps N D d C L K lC lL inf postopt max_incs rs0,
    (2 <= N)%nat -> 0 <= ceps -> 0 <= seps -> 0 < K -> (forall x, lC = Some x -> 0 <= x) -> (forall x, lL = Some x -> 0 <= x) ->
    symmetric D -> nonneg_matrix D -> triangle D -> D 0%nat 0%nat = 0 -> (forall n, 0 <= d n) ->
    served_alone N D d C L ceps seps -> covers N rs0 ->
    (limit_set C -> (exists x, lC = Some x /\ 0 < x) \/ forall n, (1 <= n < N)%nat -> d n = 0) ->
    (limit_set L -> exists x, lL = Some x /\ 0 < x) ->
    exists fuel0 rs, serves N D d C L ceps seps rs /\ forall fuel, (fuel0 <= fuel)%nat ->
      lr3opt_init ceps seps D d C L K lC lL inf postopt max_incs (Some (encode rs0)) fuel None = Some (LrReturn (Some (encode rs))).
Proof. exact lr_metric. Qed.
Print Assumptions C58_ends_metric.

(** With the length limit only, and no feasible solution, it never ends: the multiplier of
    the length limit is not looked at.  This includes every instance with one unreachable customer. *)
Theorem C58_no_safeguard_for_L_refuted :
  forall ceps seps N D d C L K lL inf postopt rs0,
    0 <= seps -> symmetric D -> nonneg_matrix D -> (forall n, 0 <= d n) -> within C ceps 0 -> within L seps 0 -> covers N rs0 ->
    (forall rs, covers N rs -> ~ Forall (feasible D d C L ceps seps) rs) ->
    forall fuel, lr3opt_init ceps seps D d C L K None lL inf postopt None (Some (encode rs0)) fuel None = None.
Proof. exact lr_forever. Qed.
Print Assumptions C58_no_safeguard_for_L_refuted.

(** Four customers around the depot; the tour of all is too long and too full. *)
Definition lr_pos (n : nat) : Z := nth n [0; 4; 5; -4; -5] 0.
Definition lr_line : matrix := fun i j => Z.abs (lr_pos i - lr_pos j).
Example C56_hypotheses :
  symmetric lr_line /\ nonneg_matrix lr_line /\ lr_line 0%nat 0%nat = 0 /\
  served_alone 5 lr_line (fun _ => 1) (Some 2) (Some 12) 0 0 /\ covers 5 [[1; 3; 2; 4]]%nat /\
  within (Some 2) 0 0 /\ within (Some 12) 0 0 /\ ~ feasible lr_line (fun _ => 1) (Some 2) (Some 12) 0 0 [1; 3; 2; 4]%nat.
Proof.
  split; [intros i j; unfold lr_line; lia|]. split; [intros i j; unfold lr_line; lia|]. split; [reflexivity|].
  split; [intros i Hi; do 5 (destruct i as [|i]; [try lia; vm_compute; split; intros _; discriminate|]); lia|].
  split; [unfold covers; cbn; apply perm_skip; apply perm_swap|]. split; [vm_compute; intros _; discriminate|]. split; [vm_compute; intros _; discriminate|].
  intros (H & _). vm_compute in H. specialize (H ltac:(discriminate)). now apply H.
Qed.
Example C56_run :
  lr3opt_init 0 0 lr_line (fun _ => 1) (Some 2) (Some 12) 20 (Some 1) (Some 1) (fun x => 1000 <? x) true None (Some (encode [[1; 3; 2; 4]]%nat)) 60 None
    = Some (LrReturn (Some (encode [[1; 2]; [3; 4]]%nat))) /\
  lr3opt_init 0 0 lr_line (fun _ => 1) (Some 2) (Some 12) 20 (Some 1) (Some 1) (fun x => 1000 <? x) true None (Some (encode [[1; 3; 2; 4]]%nat)) 60 (Some 2%nat)
    <> lr3opt_init 0 0 lr_line (fun _ => 1) (Some 2) (Some 12) 20 (Some 1) (Some 1) (fun x => 1000 <? x) true None (Some (encode [[1; 3; 2; 4]]%nat)) 60 None.
Proof. split; [vm_compute; reflexivity|vm_compute; discriminate]. Qed.
Example C57_run :
  exists sol' delta, do_3optstar_with (check_lr3opt_move 0 0 lr_line (Some 2) (Some 12) 20 1 1) (encode [[1; 3; 2; 4]; []]%nat) lr_line (fun _ => 1) true None = Some (sol', delta).
Proof. eexists. eexists. vm_compute. reflexivity. Qed.
(** One customer too far away, with and without a limit to the doublings. *)
Definition lr_far : matrix := fun i j => if Nat.eqb i j then 0 else 10.
Example C58_hypotheses :
  (forall rs, covers 2 rs -> ~ Forall (feasible lr_far (fun _ => 1) None (Some 12) 0 0) rs) /\ within (Some 12) 0 0 /\ symmetric lr_far /\ nonneg_matrix lr_far.
Proof.
  split; [|split; [vm_compute; intros _; discriminate|split; [intros i j; unfold lr_far; now rewrite Nat.eqb_sym|intros i j; unfold lr_far; destruct (Nat.eqb i j); lia]]].
  intros rs Hc HF. unfold covers in Hc. cbn in Hc.
  assert (Hin : In 1%nat (concat rs)) by (eapply Permutation_in; [symmetry; exact Hc|now left]).
  apply in_concat in Hin. destruct Hin as (r & Hr & Hin). pose proof (proj1 (Forall_forall _ _) HF r Hr) as (_ & H2).
  assert (Er : r = [1%nat]).
  { assert (HL : (length (concat rs) = 1)%nat) by (rewrite (Permutation_length Hc); reflexivity).
    apply in_split in Hr. destruct Hr as (l1 & l2 & ->). rewrite concat_app in HL. cbn [concat] in HL. rewrite !app_length in HL.
    destruct r as [|x [|y r]]; [easy| |cbn in HL; lia]. destruct Hin as [->|[]]. reflexivity. }
  subst r. vm_compute in H2. specialize (H2 ltac:(discriminate)). now apply H2.
Qed.
Example C58_run :
  lr3opt_init 0 0 lr_far (fun _ => 1) None (Some 12) 20 None (Some 1) (fun x => 1000 <? x) true (Some 5%nat) (Some (encode [[1]]%nat)) 60 None
    = Some (LrReturn (Some (encode [[1]]%nat))).
Proof. vm_compute. reflexivity. Qed.
(** The line of C56 is a metric; with the length limit only, infinity is not looked at and yet the
    call ends. *)
Example C58_metric_hypotheses :
  triangle lr_line /\ served_alone 5 lr_line (fun _ => 1) None (Some 12) 0 0 /\ ~ feasible lr_line (fun _ => 1) None (Some 12) 0 0 [1; 3; 2; 4]%nat /\
  lr3opt_init 0 0 lr_line (fun _ => 1) None (Some 12) 20 None (Some 1) (fun _ => false) true None (Some (encode [[1; 3; 2; 4]]%nat)) 60 None
    = Some (LrReturn (Some (encode [[1; 2]; [3; 4]]%nat))).
Proof.
  split; [intros i j k; unfold lr_line; lia|]. split; [intros i Hi; do 5 (destruct i as [|i]; [try lia; vm_compute; repeat split; intros; discriminate|]); lia|].
  split; [intros (_ & H); vm_compute in H; specialize (H ltac:(discriminate)); now apply H|vm_compute; reflexivity].
Qed.
