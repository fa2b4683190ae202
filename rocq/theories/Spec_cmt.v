(** * Specification of the two phase heuristic *)
From Verif Require Import Spec Spec_inter Spec_savings M_cmt.

(** Routes within the limits on which nobody is twice.  Those left out, if any, fit on one route: of their own or one
    of the routes. *)
Definition cut_short (N : nat) (D : matrix) (d : demands) (C L : limit) (ceps seps : Z) (rs : list (list nat)) : Prop :=
  Forall (fun r => r <> []) rs /\ Forall (feasible D d C L ceps seps) rs /\
  exists lost r q, Permutation (concat rs ++ lost) (seq 1 (N - 1)) /\ In r ([] :: rs) /\ Permutation q (r ++ lost) /\
    (lost = [] \/ feasible D d C L ceps seps q).

(** ** Phase one *)

(** What the first customer of a route is chosen by *)
Definition seed_key (D : matrix) (d : demands) (m : seeding) (c : nat) : Z :=
  match m with FirstSeed => 0 | FarthestSeed => D 0%nat c | ClosestSeed => - D 0%nat c | BiggestSeed => d c end.
Definition before (order : list nat) (x y : nat) : Prop := exists a b, order = a ++ x :: b /\ In y b.
(** [s] has the largest key of [pool]; among equals it is the first in the order given. *)
Definition best_seed (D : matrix) (d : demands) (m : seeding) (order pool : list nat) (s : nat) : Prop :=
  In s pool /\ forall c, In c pool -> c <> s ->
    seed_key D d m c < seed_key D d m s \/ (seed_key D d m c = seed_key D d m s /\ before order s c).

(** Customer [i] comes before [j] on the route of [s]: by D(0,i) + lambda D(i,s), then by number. *)
Definition sooner (D : matrix) (lam : Z * Z) (s i j : nat) : bool :=
  let score c := snd lam * D 0%nat c + fst lam * D c s in
  (score i <? score j) || ((score i =? score j) && Nat.ltb i j).

(** The routes with their first customers: each first customer is the best of those on this and later routes; of
    the others, exactly those are on this route that fit together with it and those who come before them. *)
Fixpoint filled (D : matrix) (d : demands) (C : limit) (ceps : Z) (m : seeding) (lam : Z * Z) (order seeds : list nat) (rs : list (list nat)) : Prop :=
  match seeds, rs with
  | [], [] => True
  | s :: seeds', r :: rs' =>
      In s r /\ best_seed D d m order (r ++ concat rs') s /\
      (forall j, In j (r ++ concat rs') -> j <> s ->
         (In j r <-> within C ceps (demand d (filter (fun i => Nat.eqb i s || sooner D lam s i j) r) + d j))) /\
      filled D d C ceps m lam order seeds' rs'
  | _, _ => False
  end.

(** np.argpartition *)
Definition partitions (argp : nat -> list Z -> list nat) : Prop :=
  forall k col, (k < length col)%nat ->
    Permutation (argp k col) (seq 0 (length col)) /\
    (forall i, (i < k)%nat -> nth (nth i (argp k col) 0%nat) col 0 <= nth (nth k (argp k col) 0%nat) col 0) /\
    (forall i, (k < i < length col)%nat -> nth (nth k (argp k col) 0%nat) col 0 <= nth (nth i (argp k col) 0%nat) col 0).

(** ** Attempts: [one] is what phase one did, [two fuel] what phase two does *)
Definition found_by (one : p1out) (two : nat -> option (option (list nat * Z) * list (list rstate * list nat))) (rs : list (list nat)) : Prop :=
  p1_sol one ++ [0%nat] = encode rs \/ exists c pts fuel0, forall fuel, (fuel0 <= fuel)%nat -> two fuel = Some (Some (encode rs, c), pts).
Definition gives_up (two : nat -> option (option (list nat * Z) * list (list rstate * list nat))) : Prop :=
  exists pts fuel0, forall fuel, (fuel0 <= fuel)%nat -> two fuel = Some (None, pts).

(** ** Phase two *)

(** How much longer the route of seed number [k] gets with customer [n] *)
Definition detour (D : matrix) (mu : Z * Z) (seeds : list nat) (k n : nat) : Z :=
  snd mu * D 0%nat n + fst mu * D n (nth k seeds 0%nat) - snd mu * D 0%nat (nth k seeds 0%nat).
(** [k] is the first of the routes [idxs] with the least detour. *)
Definition best_route (D : matrix) (mu : Z * Z) (seeds idxs : list nat) (k n : nat) : Prop :=
  exists a b, idxs = a ++ k :: b /\ (forall q, In q a -> detour D mu seeds k n < detour D mu seeds q n) /\
    forall q, In q b -> detour D mu seeds k n <= detour D mu seeds q n.
(** How much the customer loses on any of the other routes; without others, how little the detour is *)
Definition regret (D : matrix) (mu : Z * Z) (seeds others : list nat) (k n : nat) (x : Z) : Prop :=
  match others with
  | [] => x = - detour D mu seeds k n
  | _ => (exists q, In q others /\ x = detour D mu seeds q n - detour D mu seeds k n) /\
         forall q, In q others -> x <= detour D mu seeds q n - detour D mu seeds k n
  end.
