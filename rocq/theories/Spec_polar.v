(** * Specification for directions seen from the depot *)
From Verif Require Import Spec PyBase M_util M_sweep M_polar.

(** Directions in the order of their angles from -pi (left, excluded) over 0 (right) to pi (left): downwards, to the right,
    upwards, to the left.  A point that is in the depot counts as to the right. *)
Definition quarter (x y : Z) : Z := if y <? 0 then 0 else if 0 <? y then 2 else if 0 <=? x then 1 else 3.
(** Seen from (0,0) the point (x',y') is not before (x,y) when turning counterclockwise from the left: it is in a later part
    of the turn or, in the same part, not to the right of (x,y). *)
Definition not_later (x y x' y' : Z) : Prop :=
  quarter x y < quarter x' y' \/ (quarter x y = quarter x' y' /\ 0 <= x * y' - y * x').

(** argsort gives positions in which the keys, fractions with positive denominators, do not decrease. *)
Definition sorts (argsort : list fraction -> list nat) : Prop :=
  forall l, Forall (fun a : fraction => 0 < snd a) l -> Permutation (argsort l) (seq 0 (length l)) /\
    forall i j, (i < j < length l)%nat ->
      frac_leb (nth (nth i (argsort l) 0%nat) l (0, 1)) (nth (nth j (argsort l) 0%nat) l (0, 1)) = true.

(** The place of a node, relative to the depot *)
Definition px (pts : list (list Z)) (n : nat) : Z := nth 0 (nth n pts []) 0 - nth 0 (nth 0 pts []) 0.
Definition py (pts : list (list Z)) (n : nat) : Z := nth 1 (nth n pts []) 0 - nth 1 (nth 0 pts []) 0.
Definition planar (pts : list (list Z)) : Prop := Forall (fun p => length p = 2%nat) pts.

(** ** Angles that a route passes: those of its customers and those between neighbours, on the shorter way around *)
Definition between_shorter (pi p q x : Z) : Prop :=
  if Z.abs (p - q) <=? pi then Z.min p q <= x <= Z.max p q else x <= Z.min p q \/ Z.max p q <= x.
Definition passed (pi : Z) (phis : list Z) (x : Z) : Prop :=
  In x phis \/ exists a p q b, phis = a ++ p :: q :: b /\ between_shorter pi p q x.
