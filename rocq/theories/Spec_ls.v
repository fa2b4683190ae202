(** * Specification of local search moves

    Independent of the model of the code. *)
From Verif Require Import Spec.

(** The contract of an improvement operator that searches the neighbourhood [nbr] of an
    object of cost [cur].  [thr] is the change of cost to beat, [best] whether the best
    neighbour is to be returned. *)
Definition finds_improvement {R} (cost : R -> Z) (nbr : R -> Prop) (cur thr eps : Z) (best : bool)
           (res : option (R * Z)) : Prop :=
  match res with
  | None => forall r, nbr r -> thr <= (cost r - cur) + eps
  | Some (r', delta) =>
      nbr r' /\ delta = cost r' - cur /\ delta + eps < thr /\
      (best = true -> forall r, nbr r -> delta <= (cost r - cur) + eps)
  end.

(** Reverse a segment; the ends of the route stay. *)
Definition two_opt_nbr (route r' : list nat) : Prop :=
  exists l1 l2 l3, l1 <> [] /\ l2 <> [] /\ l3 <> [] /\
    route = l1 ++ l2 ++ l3 /\ r' = l1 ++ rev l2 ++ l3.

(** Remove three edges and reconnect the four pieces in any way that keeps the ends. *)
Definition three_opt_nbr (route r' : list nat) : Prop :=
  exists l1 l2 l3 l4, l1 <> [] /\ l2 <> [] /\ l3 <> [] /\ l4 <> [] /\
    route = l1 ++ l2 ++ l3 ++ l4 /\
    (r' = l1 ++ l2 ++ rev l3 ++ l4 \/
     r' = l1 ++ rev l2 ++ l3 ++ l4 \/
     r' = l1 ++ rev l2 ++ rev l3 ++ l4 \/
     r' = l1 ++ l3 ++ l2 ++ l4 \/
     r' = l1 ++ rev l3 ++ l2 ++ l4 \/
     r' = l1 ++ l3 ++ rev l2 ++ l4 \/
     r' = l1 ++ rev l3 ++ rev l2 ++ l4).

(** Move one node to another place between the ends. *)
Definition relocate_nbr (route r' : list nat) : Prop :=
  exists l1 l2 l3 b, l1 <> [] /\ l2 <> [] /\ l3 <> [] /\
    ((route = l1 ++ [b] ++ l2 ++ l3 /\ r' = l1 ++ l2 ++ [b] ++ l3) \/
     (route = l1 ++ l2 ++ [b] ++ l3 /\ r' = l1 ++ [b] ++ l2 ++ l3)).

(** Swap two nodes between the ends. *)
Definition exchange_nbr (route r' : list nat) : Prop :=
  exists l1 l2 l3 b e, l1 <> [] /\ l3 <> [] /\
    route = l1 ++ [b] ++ l2 ++ [e] ++ l3 /\ r' = l1 ++ [e] ++ l2 ++ [b] ++ l3.

(** No node occurs twice, except that the two ends may be the same node. *)
Definition simple_tour (route : list nat) : Prop := NoDup (tl route) /\ NoDup (removelast route).

(** [r'] is a tour over the nodes of [route] with the same ends. *)
Definition same_tour_nodes (route r' : list nat) : Prop :=
  Permutation route r' /\ hd 0%nat r' = hd 0%nat route /\ last r' 0%nat = last route 0%nat.

(** The closed tour a solver starts from when given the nodes [idxs] (possibly closed already)
    or a shuffle of their tail. *)
Definition initial_tour (idxs : list nat) (shuffled : option (list nat)) : list nat :=
  match shuffled with
  | Some p => [hd 0%nat idxs] ++ p ++ [hd 0%nat idxs]
  | None => if Nat.eqb (last idxs 0%nat) (hd 0%nat idxs) then idxs else idxs ++ [hd 0%nat idxs]
  end.

