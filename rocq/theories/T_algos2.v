(** * Wren and Holliday's heuristic through the uniform interface: the property theorems *)
From Verif Require Import Spec Spec_inter Spec_savings Spec_polar PyBase M_util M_polar M_wh Spec_wh P_wh9 P_polar2 M_cli M_algos Spec_all M_algos2 P_algos3 T_all T_end T_algos.
From Coq Require Import ZifyBool ZifyNat Lia Arith List Permutation.
Import ListNotations.
Local Open Scope Z_scope.

(** ** C121 *)

(** The eighteenth heuristic, wh, ends with a solution that serves everybody once within the limits if the number of routes
    is to be minimized.  Missing: the default, in which it can go on for ever (C84_default_refuted), and -1 with a single
    customer, which raises an exception (C115_single_refuted). *)
Theorem C121_wh_partial : forall argsort points overlap gap set_order eps N D d C L,
  Spec_all.problem N D d C L eps -> triangle D -> length points = N -> planar points -> sorts argsort ->
  (forall l, l <> [] -> (gap l < length l)%nat) -> (forall l, Permutation (set_order l) l) ->
  forall single, single = false \/ (3 <= N)%nat ->
  exists rs, serves N D d C L eps eps rs /\
    ends_with (wh_call argsort points overlap gap set_order eps N D d C L single true) (Returns (Some (encode rs))).
Proof. exact wh_call_ends. Qed.
Print Assumptions C121_wh_partial.
(** In both modes what it returns does. *)
Theorem C121_wh_returns : forall argsort points overlap gap set_order eps N D d C L,
  Spec_all.problem N D d C L eps -> triangle D -> length points = N -> planar points -> sorts argsort ->
  (forall l, l <> [] -> (gap l < length l)%nat) -> (forall l, Permutation (set_order l) l) ->
  forall single minimize_K fuel o, single = false \/ (3 <= N)%nat ->
  wh_call argsort points overlap gap set_order eps N D d C L single minimize_K fuel = Some o ->
  exists rs, o = Returns (Some (encode rs)) /\ serves N D d C L eps eps rs.
Proof. exact wh_returns. Qed.
Print Assumptions C121_wh_returns.
(** Five places on a line, as in C121_case *)
Example C121_wh_case :
  (forall single minimize_K, exists sol, wh_call by_insertion (s_points line_around) overlapping first_gap as_listed 0 5 allD alld (Some 4) (Some 60) single minimize_K 100 = Some (Returns (Some sol))) /\
  triangle allD /\ (forall l, l <> [] -> (first_gap l < length l)%nat) /\ (forall l, Permutation (as_listed l) l).
Proof.
  split; [intros [] []; eexists; vm_compute; reflexivity|]. split; [|split].
  - intros i j k. unfold allD. lia.
  - intros [|x l] H; [contradiction|]. unfold first_gap. cbn [length]. lia.
  - intros l. apply Permutation_refl.
Qed.
