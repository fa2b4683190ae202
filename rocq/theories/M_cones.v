(** The default choice of seed points of the generalized assignment heuristic:
    cones around the depot (gapvrp.py).  Numbers are rationals without rounding;
    [turn] stands for 2*pi. *)
From Coq Require Import ZArith QArith Qminmax Qround List Bool.
Import ListNotations.
Open Scope Q_scope.

(** [a < b] *)
Definition Qltb (a b : Q) : bool := negb (Qle_bool b a).

(** [bisect_angle(angle1, angle2, ratio)], direction 1: sweep.py:62-69.
    Simplification: the while loop that adds full turns to [angle2] until it is
    not below [angle1] is given in closed form. *)
Definition bisect_angle (turn a b ratio : Q) : Q :=
  let b1 := b + inject_Z (Z.max 0 (Qceiling ((a - b) / turn))) * turn in
  a - (a - b1) * ratio.

(** A place of the sweep: angle, distance from the depot, node *)
Definition place := (Q * Q * nat)%type.

(** [_Cone]: gapvrp.py:213; its nodes are (distance, node, weight) *)
Record cone := Cone {
  phi1 : Q; phi2 : Q; weight : Q; nodes : list (Q * nat * Q) }.

(** What the loop of gapvrp.py:257-344 keeps.  [prev] is the previous node, its
    distance and its ray. *)
Record cone_state := CS {
  groups : list cone; start_ray : Q; cum : Q; members : list (Q * nat * Q);
  prev : option (nat * Q * Q); prev_phi : Q }.

(** One node of the sweep: gapvrp.py:258-344.  [w prev i] is the weight of the
    cone of [prev]: its demand or, without a capacity, the distance to the next
    node (gapvrp.py:273-281).  Simplification: a weight of zero counts as
    fraction 1 also for distances, where the code divides by zero in floating
    point. *)
Definition cone_step (turn target eps : Q) (w : nat -> nat -> Q)
  (s : cone_state) (p : place) : cone_state :=
  let '(phi, rho, i) := p in
  let phi := if Qltb phi (prev_phi s) then phi + turn else phi in
  let ray := bisect_angle turn (prev_phi s) phi (1 # 2) in
  match prev s with
  | None => CS (groups s) ray (cum s) (members s) (Some (i, rho, ray)) phi
  | Some (pi, prho, pray) =>
      let wt := w pi i in
      let fraction := if Qeq_bool wt 0 then 1 else Qmin 1 ((target - cum s) / wt) in
      let cum1 := cum s + fraction * wt in
      let members1 := members s ++ [(prho, pi, wt)] in
      if Qltb (target - cum1) eps
      then
        let end_ray := bisect_angle turn pray ray fraction in
        let g := Cone (start_ray s) end_ray cum1 members1 in
        let rest := Qltb fraction 1 in
        CS (groups s ++ [g]) end_ray
           (if rest then (1 - fraction) * wt else 0)
           (if rest then [(prho, pi, wt)] else [])
           (Some (i, rho, ray)) phi
      else CS (groups s) (start_ray s) cum1 members1 (Some (i, rho, ray)) phi
  end.

(** The nodes of the sweep from number [trial] on, then from the first to
    number [trial] again: gapvrp.py:257 *)
Definition circle_view (sweep : list place) (trial : nat) : list place :=
  skipn trial sweep ++ firstn (trial + 1) sweep.

(** The angle before the first: gapvrp.py:250-252 *)
Definition first_prev_phi (turn : Q) (sweep : list place) (trial : nat) : Q :=
  match trial with
  | O => fst (fst (last sweep (0, 0, 0%nat))) - turn
  | S t => fst (fst (nth t sweep (0, 0, 0%nat)))
  end.

(** The groups of cones: gapvrp.py:238-344 *)
Definition cone_groups (turn target eps : Q) (w : nat -> nat -> Q)
  (sweep : list place) (trial : nat) : cone_state :=
  fold_left (cone_step turn target eps w) (circle_view sweep trial)
    (CS [] 0 0 [] None (first_prev_phi turn sweep trial)).

(** [sorted(grouped_cone.nodes)]: by distance, then by node; gapvrp.py:366.
    Simplification: equal distances and nodes are not compared by weight (a
    node has one weight). *)
Fixpoint insert_node (x : Q * nat * Q) (l : list (Q * nat * Q)) : list (Q * nat * Q) :=
  match l with
  | [] => [x]
  | y :: t =>
      if Qltb (fst (fst y)) (fst (fst x))
         || (Qeq_bool (fst (fst y)) (fst (fst x)) && Nat.ltb (snd (fst y)) (snd (fst x)))
      then y :: insert_node x t
      else x :: l
  end.

Definition sort_nodes (l : list (Q * nat * Q)) : list (Q * nat * Q) := fold_right insert_node [] l.

(** The distance of the seed from the depot: gapvrp.py:363-373 *)
Fixpoint grow_arc (weight_target seed_rho grow : Q) (l : list (Q * nat * Q)) : Q :=
  match l with
  | [] => seed_rho
  | (cr, _, cwt) :: t =>
      if Qltb weight_target (grow + cwt)
      then seed_rho + ((weight_target - grow) / cwt) * (cr - seed_rho)
      else grow_arc weight_target cr (grow + cwt) t
  end.

(** The seed of a group in polar coordinates around the depot: distance and
    angle; gapvrp.py:363-378 *)
Definition cone_seed (turn target : Q) (g : cone) : Q * Q :=
  (grow_arc ((3 # 4) * target) 0 0 (sort_nodes (nodes g)),
   bisect_angle turn (phi1 g) (phi2 g) (1 # 2)).

(** What [_sweep_seed_points] gives: an exception, or one point per vehicle; a
    point is [None] when it was never set and still is (0, 0) of
    [np.zeros((K,2))] *)
Inductive cone_seeds : Type :=
| Cone_seeds (s : list (option (Q * Q)))
| Cone_division_by_zero
| Cone_index_error.

(** [sum(...)] of the weights that the target is computed from: demands of all
    nodes, or the distances around the sweep.  gapvrp.py:225-234 *)
Definition Qsum (l : list Q) : Q := fold_right Qplus 0 l.

(** [_sweep_seed_points(points, D, d, C, K, trial)]: gapvrp.py:214-379.  [sweep]
    is what [get_sweep_from_cartesian_coordinates] gives (M_polar.v), [total]
    the sum of all weights. *)
Definition sweep_seed_points (turn eps total : Q) (w : nat -> nat -> Q)
  (sweep : list place) (K trial : nat) : cone_seeds :=
  match K with
  | O => Cone_division_by_zero
  | _ =>
      let target := total / inject_Z (Z.of_nat K) in
      let gs := groups (cone_groups turn target eps w sweep trial) in
      if Nat.ltb K (length gs) then Cone_index_error
      else Cone_seeds (map (fun g => Some (cone_seed turn target g)) gs
                       ++ repeat None (K - length gs))
  end.
