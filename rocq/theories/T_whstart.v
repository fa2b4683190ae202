(** * Property C115: where the sweeps of Wren and Holliday's heuristic start *)
From Coq Require Import Lia.
From Verif Require Import Spec Spec_savings PyBase M_util M_sweep M_polar Spec_polar M_whstart Spec_whstart P_polar2 P_whstart P_whstart2.
From Verif Require Import M_wh Spec_wh P_wh9.

(** By default there are sweeps from four rays in each direction: the ray opposite to the mean direction of the customers, as
    seen from the depot and weighted by their demands, and those quarters of a turn from it.  Each starts with the first
    customer that the ray meets when it turns in the direction of the sweep.  With LEAST_DENSE there is only the first ray; with
    BEST_ALTERNATIVE there is a sweep from every customer. *)
Theorem C115_starts :
  forall argsort pts d dir,
    sorts argsort -> (2 <= length pts)%nat -> planar pts ->
    match d with Some ds => length ds = length pts | None => True end ->
    exists rho order,
      read_coordinates argsort pts = Some (rho, order) /\ Permutation order (seq 1 (length pts - 1)) /\
      (exists s, wh_sweeps argsort pts d BestOfFour dir = Some s /\
         Forall2 (from_ray pts (weight_of d) order) (flat_map (fun ccw => map (pair ccw) (seq 0 4)) (dirs dir)) s) /\
      (exists s, wh_sweeps argsort pts d LeastDense dir = Some s /\
         Forall2 (from_ray pts (weight_of d) order) (map (fun ccw => (ccw, 0%nat)) (dirs dir)) s) /\
      wh_sweeps argsort pts d BestAlternative dir = Some (flat_map (fun ccw => map (pair ccw) (seq 0 (length pts - 1))) (dirs dir)).
Proof. intros argsort pts d dir Hs HN Hp Hd. exact (rays argsort Hs pts d HN Hp Hd dir). Qed.
Print Assumptions C115_starts.

(** Five customers, most of the demand to the right: the first ray is to the left *)
Definition five : list (list Z) := [[10; 10]; [7; 10]; [10; 14]; [12; 11]; [8; 5]; [15; 10]].
Example C115_case :
  planar five /\ mean_direction five (weight_of (Some [0; 1; 1; 5; 1; 3])) = (20, 4) /\
  ray (20, 4) 0 = (-20, -4) /\ ray (20, 4) 1 = (4, -20) /\
  read_coordinates by_insertion five = Some ([29; 25; 5; 16; 9], [4; 5; 3; 2; 1]%nat) /\
  wh_sweeps by_insertion five (Some [0; 1; 1; 5; 1; 3]) BestOfFour BothWays =
    Some [(false, 4); (false, 0); (false, 1); (false, 3); (true, 0); (true, 1); (true, 2); (true, 4)]%nat /\
  wh_sweeps by_insertion five None LeastDense CCW = Some [(true, 0)]%nat.
Proof. split; [repeat constructor|]. repeat split; vm_compute; reflexivity. Qed.

(** From points, with any of these ways to choose the starts, whatever is returned serves everybody once and is within the
    limits. *)
Theorem C115_result_partial :
  forall argsort pts ds eps D C L overlap gap set_order minimize_K full rho order seed dir s fuel r,
    let N := length pts in let d n := nth n ds 0 in
    sorts argsort -> planar pts -> length ds = N ->
    match seed with AtPosition p => (p < N - 1)%nat | _ => True end ->
    read_coordinates argsort pts = Some (rho, order) ->
    wh_instance eps N D d C L order gap set_order ->
    wh_sweeps argsort pts (Some ds) seed dir = Some s ->
    wren_holliday_init eps N D d C L order overlap gap set_order minimize_K full s fuel = Some r ->
    exists rs, r = WhReturns (Some (encode rs)) /\ serves N D d C L eps eps rs.
Proof. exact whole. Qed.
Print Assumptions C115_result_partial.
Definition hexagon : list (list Z) := [[5; 5]; [3; 4]; [5; 2]; [7; 4]; [7; 6]; [5; 8]; [3; 6]].
Example C115_result_case :
  sorts by_insertion /\ planar hexagon /\
  read_coordinates by_insertion hexagon = Some ([5; 9; 5; 5; 9; 5], seq 1 6) /\
  wh_instance 0 7 crossing (fun n => nth n [0; 2; 4; 2; 4; 2; 3] 0) (Some 7) None (seq 1 6) first_gap as_listed /\
  wh_sweeps by_insertion hexagon (Some [0; 2; 4; 2; 4; 2; 3]) LeastDense BothWays = Some [(false, 4); (true, 5)]%nat /\
  wren_holliday_init 0 7 crossing (fun n => nth n [0; 2; 4; 2; 4; 2; 3] 0) (Some 7) None (seq 1 6) overlapping first_gap as_listed false true
    [(false, 4); (true, 5)]%nat 40 = Some (WhReturns (Some [0; 5; 2; 0; 1; 3; 0; 6; 4; 0]%nat)).
Proof.
  split; [exact by_insertion_sorts|]. split; [repeat constructor|]. split; [vm_compute; reflexivity|].
  split; [exact crossing_ok|]. split; [vm_compute; reflexivity|]. vm_compute. reflexivity.
Qed.

(** The command line's option for a single attempt asks for position 1 of the sweep, which is that of the second customer: with
    one customer there is none, and the heuristic raises an exception whatever the problem is. *)
Theorem C115_single_refuted :
  forall argsort pts ds eps D C L order overlap gap set_order minimize_K full fuel s,
    sorts argsort -> planar pts -> length pts = 2%nat -> order = [1%nat] ->
    wh_sweeps argsort pts (Some ds) (wh_cli_seed true) BothWays = Some s ->
    wren_holliday_init eps 2 D (fun n => nth n ds 0) C L order overlap gap set_order minimize_K full s fuel = Some WhRaises.
Proof. exact single_raises. Qed.
Print Assumptions C115_single_refuted.
Example C115_single_case :
  wh_sweeps by_insertion [[0; 0]; [3; 4]] (Some [0; 1]) (wh_cli_seed true) BothWays = Some [(false, 1); (true, 1)]%nat /\
  read_coordinates by_insertion [[0; 0]; [3; 4]] = Some ([25], [1]%nat).
Proof. split; reflexivity. Qed.
