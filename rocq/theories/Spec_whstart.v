(** * Specification for where the sweeps of Wren and Holliday's heuristic start *)
From Verif Require Import Spec PyBase M_sweep M_polar Spec_polar.

(** The mean direction of the customers seen from the depot, each as important as its weight and its distance: the sum of
    weighted places.  If they cancel out it is to the right. *)
Definition mean_direction (pts : list (list Z)) (weight : nat -> Z) : Z * Z :=
  let ns := seq 1 (length pts - 1) in
  let mx := sumZ (map (fun n => weight n * px pts n) ns) in
  let my := sumZ (map (fun n => weight n * py pts n) ns) in
  if (mx =? 0) && (my =? 0) then (1, 0) else (mx, my).

Definition quarter_turn (v : Z * Z) : Z * Z := (- snd v, fst v).

(** The ray from the depot that is opposite to the mean direction, and those [i] quarters of a turn counterclockwise of it *)
Fixpoint ray (m : Z * Z) (i : nat) : Z * Z :=
  match i with
  | O => (- fst m, - snd m)
  | S j => quarter_turn (ray m j)
  end.

(** Directions that the ray [v] reaches only when it turns counterclockwise, and before it passes the left *)
Definition past (pts : list (list Z)) (v : Z * Z) (n : nat) : Prop := ~ not_later (px pts n) (py pts n) (fst v) (snd v).
Definition before (pts : list (list Z)) (a b : nat) : Prop := not_later (px pts a) (py pts a) (px pts b) (py pts b).

(** [a] is the first customer that the ray [v] meets when it turns counterclockwise: the first that it meets before it passes
    the left or, if there is none, the first after it has passed the left. *)
Definition first_ccw (pts : list (list Z)) (v : Z * Z) (a : nat) : Prop :=
  let customer n := (1 <= n < length pts)%nat in
  customer a /\
  ((past pts v a /\ forall b, customer b -> past pts v b -> before pts a b) \/
   ((forall b, customer b -> ~ past pts v b) /\ forall b, customer b -> before pts a b)).

(** [a] is the first customer that the ray [v] meets when it turns clockwise, starting with those on it. *)
Definition first_cw (pts : list (list Z)) (v : Z * Z) (a : nat) : Prop :=
  let customer n := (1 <= n < length pts)%nat in
  customer a /\
  ((~ past pts v a /\ forall b, customer b -> ~ past pts v b -> before pts b a) \/
   ((forall b, customer b -> past pts v b) /\ forall b, customer b -> before pts b a)).

(** The directions that are asked for, counterclockwise or not *)
Definition dirs (dir : sw_direction) : list bool := match dir with BothWays => [false; true] | CW => [false] | CCW => [true] end.

(** The sweep [s] (direction and position in the order of the sweep) starts with the first customer that the ray meets which
    [want] (direction and number of the ray) tells *)
Definition from_ray (pts : list (list Z)) (weight : nat -> Z) (order : list nat) (want : bool * nat) (s : bool * nat) : Prop :=
  let v := ray (mean_direction pts weight) (snd want) in
  fst s = fst want /\ (snd s < length pts - 1)%nat /\
  if fst want then first_ccw pts v (nth (snd s) order 0%nat) else first_cw pts v (nth (snd s) order 0%nat).

(** What a customer counts for the mean direction: its demand, or everyone the same *)
Definition weight_of (d : option (list Z)) (n : nat) : Z := match d with Some ds => nth n ds 0 | None => 1 end.
