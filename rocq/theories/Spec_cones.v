(** What dividing the customers around the depot into equal cones means,
    independent of the model. *)
From Coq Require Import ZArith QArith List Permutation.
Import ListNotations.
Open Scope Q_scope.

(** The weights of going along a list of nodes, and of going around it *)
Fixpoint along (w : nat -> nat -> Q) (l : list nat) : Q :=
  match l with
  | a :: ((b :: _) as t) => w a b + along w t
  | _ => 0
  end.

Definition around (w : nat -> nat -> Q) (l : list nat) : Q :=
  match l with
  | [] => 0
  | x :: _ => along w (l ++ [x])
  end.

(** Angles in ascending order within one turn *)
Fixpoint ascending (l : list Q) : Prop :=
  match l with
  | a :: ((b :: _) as t) => a <= b /\ ascending t
  | _ => True
  end.

Definition within_a_turn (turn : Q) (l : list Q) : Prop :=
  ascending l /\ forall a b, In a l -> In b l -> b - a <= turn.

(** Sectors (given by two angles) that follow each other from [a] on *)
Fixpoint consecutive (a : Q) (sectors : list (Q * Q)) : Prop :=
  match sectors with
  | [] => True
  | (b, c) :: t => a == b /\ b <= c /\ consecutive c t
  end.

(** The ray that separates the last two of the angles [l], seen after the angle
    [q]: the cone of a customer goes from the ray before it to the ray behind
    it, and rays are halfway between neighbouring angles; angles that fall back
    are a turn further on.  [r] is the ray if there are no angles. *)
Fixpoint last_ray (turn q r : Q) (l : list Q) : Q :=
  match l with
  | [] => r
  | phi :: t =>
      let phi' := if Qle_bool q phi then phi else phi + turn in
      last_ray turn phi' ((q + phi') / 2) t
  end.

(** The cones of the places [l] (angle, distance, node), which [b] follows: the
    distance, the node and the weight of each *)
Fixpoint cones_of (w : nat -> nat -> Q) (l : list (Q * Q * nat)) (b : Q * Q * nat)
  : list (Q * nat * Q) :=
  match l with
  | [] => []
  | a :: t => (snd (fst a), snd a, w (snd a) (snd (hd b t))) :: cones_of w t b
  end.

(** The sectors [gs] (first angle, last angle, weight, cones) around places
    that are visited in the order [view], after the angle [q], are right: each
    goes from within the cone of the first of its places to within the cone of
    the last of its places, to where the weight of the sectors up to then is
    reached (the weight of a cone being spread evenly over its angle). *)
Definition sectors_right (turn : Q) (w : nat -> nat -> Q) (q : Q) (view : list (Q * Q * nat))
  (gs : list (Q * Q * Q * list (Q * nat * Q))) : Prop :=
  let ray l := last_ray turn q 0 (map (fun p => fst (fst p)) l) in
  forall before from to wt cones after, gs = before ++ (from, to, wt, cones) :: after ->
    exists earlier first places a b later f,
      view = earlier ++ places ++ b :: later
      /\ places = first :: tl places /\ last places first = a
      /\ cones = cones_of w places b
      /\ ray (earlier ++ [first]) <= from
      /\ from <= ray (earlier ++ firstn 2 (places ++ [b]))
      /\ 0 <= f /\ f <= 1
      /\ to == ray (earlier ++ places) + f * (ray (earlier ++ places ++ [b]) - ray (earlier ++ places))
      /\ fold_right Qplus 0 (map (fun g => snd (fst g)) before) + wt
         == along w (map snd (earlier ++ places)) + f * w (snd a) (snd b).

(** The angle before number [k] of the angles [l] around the depot *)
Definition angle_before (turn : Q) (l : list Q) (k : nat) : Q :=
  match k with
  | O => last l 0 - turn
  | _ => last (firstn k l) 0
  end.

(** [dist] is where the weight [goal] is reached when going outwards over the
    [cones] (distance, node, weight), the weight of each being spread evenly
    over the distance from the one before it (or from 0). *)
Definition reached_at (goal : Q) (cones : list (Q * nat * Q)) (dist : Q) : Prop :=
  exists near m far f, Permutation (near ++ m :: far) cones
    /\ ascending (map (fun c => fst (fst c)) (near ++ m :: far)) /\ 0 <= f /\ f <= 1
    /\ fold_right Qplus 0 (map snd near) + f * snd m == goal
    /\ let last_near := last (map (fun c => fst (fst c)) near) 0 in
       dist == last_near + f * (fst (fst m) - last_near).
