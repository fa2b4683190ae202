(** * Specification of the naive local search *)
From Verif Require Import Spec Spec_ls Spec_inter M_naive.

(** A solution as a list of nodes whose routes are all within the limits *)
Definition keeps_limits (D : matrix) (d : demands) (C L : limit) (ceps eps : Z) (sol : list nat) : Prop :=
  exists rs, sol = encode rs /\ Forall customers_only rs /\ Forall (feasible D d C L ceps eps) rs.

(** Some customers that follow each other on a route are visited in the reverse order. *)
Definition reversed_part (sol s : list nat) : Prop :=
  exists l1 l2 l3, sol = l1 ++ l2 ++ l3 /\ s = l1 ++ rev l2 ++ l3 /\ customers_only l2.
(** A customer is moved to another place, on the same or another route. *)
Definition moved_customer (sol s : list nat) : Prop :=
  exists l1 n l2 l3 l4, n <> 0%nat /\ sol = l1 ++ n :: l2 /\ l1 ++ l2 = l3 ++ l4 /\ l3 <> [] /\ l4 <> [] /\ s = l3 ++ n :: l4.
(** Two customers change places. *)
Definition swapped_customers (sol s : list nat) : Prop :=
  exists l1 a l2 b l3, a <> 0%nat /\ b <> 0%nat /\ sol = l1 ++ a :: l2 ++ b :: l3 /\ s = l1 ++ b :: l2 ++ a :: l3.

(** What an operator answers that only returns or finds nothing *)
Definition answered (out : naive_out) (res : option (list nat * Z)) : Prop :=
  out = match res with Some (s, delta) => Found s delta | None => Nothing end.

(** One route is improved by the kind of change [change]: [r'] is better than [r] by more than eps, and by [best] no
    such change is better by more than eps still; or there is no improvement. *)
Definition route_improved (change : list nat -> list nat -> Prop) (D : matrix) (d : demands) (C L : limit) (ceps eps : Z) (best : bool)
    (r r' : list nat) : Prop :=
  (r' = r /\ forall q, change (wrap r) (wrap q) -> feasible D d C L ceps eps q -> route_cost D r <= route_cost D q + eps) \/
  (change (wrap r) (wrap r') /\ feasible D d C L ceps eps r' /\ route_cost D r' + eps < route_cost D r /\
   (best = true -> forall q, change (wrap r) (wrap q) -> feasible D d C L ceps eps q -> route_cost D r' <= route_cost D q + eps)).

(** The changes an operator looks for, of a whole solution *)
Definition within_route (change : list nat -> list nat -> Prop) (sol s : list nat) : Prop :=
  exists rs1 r r' rs2, sol = encode (rs1 ++ r :: rs2) /\ s = encode (rs1 ++ r' :: rs2) /\ change (wrap r) (wrap r') /\
    Forall customers_only (rs1 ++ r :: rs2) /\ Forall customers_only (rs1 ++ r' :: rs2).
Definition change_of (op : naive_op) : list nat -> list nat -> Prop :=
  match op with
  | N2opt => reversed_part
  | N1point => moved_customer
  | NRelocate => within_route moved_customer
  | N2point => swapped_customers
  | NExchange => within_route swapped_customers
  | N2optstar | N3optstar => fun _ _ => False
  end.
Definition works (op : naive_op) : Prop := op <> N2optstar /\ op <> N3optstar.

(** Two searches agree: both find an improvement or neither does, and if both look for the best one, the improvements
    differ by no more than eps. *)
Definition agree (best : bool) (eps : Z) (a b : option (list nat * Z)) : Prop :=
  match a, b with
  | None, None => True
  | Some (_, x), Some (_, y) => best = true -> Z.abs (x - y) <= eps
  | _, _ => False
  end.
