(** * Model of where Wren and Holliday's heuristic starts its sweeps: wren_holliday_sweep.py:517-572 and 760-762

    Angles are those of M_polar.v: fractions between -2 and 2 for -pi to pi.  Turning by a quarter adds 1 to them just as it
    adds pi/2 to an angle, so that the steps of the code, multiples of pi/2, are exact. *)
From Verif Require Import Spec PyBase M_util M_sweep M_polar.

(** [seed_node]: BEST_OF_FOUR, LEAST_DENSE, BEST_ALTERNATIVE or another integer.
    Simplification: negative integers, which would count from the end, are left out. *)
Inductive wh_seed := BestOfFour | LeastDense | BestAlternative | AtPosition (p : nat).

(** Lines 535-542: the sum of the places relative to the depot, weighted by demands if there are any.
    Simplification: the code divides it by the number of customers, which leaves its angle as it is. *)
Definition sum_of_places (pts : list (list Z)) (d : option (list Z)) : Z * Z :=
  let o := nth 0 pts [] in
  let rel := map (fun p => (nth 0 p 0 - nth 0 o 0, nth 1 p 0 - nth 1 o 0)) (tl pts) in
  let weighted := match d with
                  | Some ds => map (fun q : Z * (Z * Z) => (fst q * fst (snd q), fst q * snd (snd q))) (combine (tl ds) rel)
                  | None => rel
                  end in
  (sumZ (map fst weighted), sumZ (map snd weighted)).

(** Lines 543-556: the [i]th angle *)
Definition angle_tgt (m : Z * Z) (i : nat) : fraction :=
  let '(num, den) := snd (cart2pol (fst m) (snd m)) in
  let least_dense_phi := if 0 <? num then num - 2 * den else num + 2 * den in
  let t := least_dense_phi + Z.of_nat i * den in
  (if 2 * den <? t then t - 4 * den else t, den).

(** numpy.argmax(sweep_phis>angle_tgt), line 559: the first position with a greater angle, 0 if there is none *)
Fixpoint find_above (phis : list fraction) (tgt : fraction) : option nat :=
  match phis with
  | [] => None
  | p :: t => if frac_leb p tgt then option_map S (find_above t tgt) else Some 0%nat
  end.
Definition argmax_above (phis : list fraction) (tgt : fraction) : nat :=
  match find_above phis tgt with Some i => i | None => 0%nat end.

(** Lines 559-564 *)
Definition start_node (N : nat) (phis : list fraction) (ccw : bool) (tgt : fraction) : nat :=
  let start_from_here := argmax_above phis tgt in
  if ccw then start_from_here
  else match start_from_here with O => (N - 2)%nat | S p => p end.

(** Lines 517-572: pairs of the direction (counterclockwise) and the position in the sweep; [None]: an exception *)
Definition wh_sweeps (argsort : list fraction -> list nat) (pts : list (list Z)) (d : option (list Z)) (seed_node : wh_seed)
  (direction : sw_direction) : option (list (bool * nat)) :=
  match get_sweep_from_cartesian_coordinates argsort pts with
  | None => None
  | Some (sweep_phis, _, _) =>
      let N := length pts in
      let directions := match direction with BothWays => [false; true] | CW => [false] | CCW => [true] end in
      let from_angle ccw i := (ccw, start_node N sweep_phis ccw (angle_tgt (sum_of_places pts d) i)) in
      Some (flat_map (fun ccw =>
              match seed_node with
              | BestOfFour => map (from_angle ccw) (seq 0 4)
              | LeastDense => [from_angle ccw 0%nat]
              | BestAlternative => map (pair ccw) (seq 0 (N - 1))
              | AtPosition p => [(ccw, p)]
              end) directions)
  end.

(** get_wh_algorithm, lines 760-762: the seed of the command line, which leaves the direction as it is by default *)
Definition wh_cli_seed (single : bool) : wh_seed := if single then AtPosition 1 else BestOfFour.
