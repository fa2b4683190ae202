(** * Specification for the savings heuristics *)
From Verif Require Import Spec Spec_inter.

(** The pairs of a savings list are pairs of customers. *)
Definition valid_pairs (N : nat) (savings : list (Z * Z * nat * nat)) : Prop :=
  forall s x i j, In (s, x, i, j) savings -> (1 <= i < N)%nat /\ (1 <= j < N)%nat.

(** Every customer can be served by a route of its own. *)
Definition served_alone (N : nat) (D : matrix) (d : demands) (C L : limit) (ceps seps : Z) : Prop :=
  forall i, (1 <= i < N)%nat -> feasible D d C L ceps seps [i].

(** Non-empty feasible routes that serve every customer once. *)
Definition serves (N : nat) (D : matrix) (d : demands) (C L : limit) (ceps seps : Z) (rs : list (list nat)) : Prop :=
  covers N rs /\ Forall (fun r => r <> []) rs /\ Forall (feasible D d C L ceps seps) rs.

(** One route per customer. *)
Definition star_routes (N : nat) : list (list nat) := map (fun i => [i]) (seq 1 (N - 1)).

(** [rs'] does not beat [rs]: by number of routes and then cost, or by cost. *)
Definition not_beaten (minimize_K : bool) (D : matrix) (rs rs' : list (list nat)) : Prop :=
  ~ beats minimize_K (routes_cost D rs') (length rs') (routes_cost D rs) (length rs).

(** [q] is made of the routes [r1] and [r2], either of them possibly reversed, by driving from
    customer [i] at an end of [r1] to customer [j] at an end of [r2]. *)
Definition joined (r1 r2 : list nat) (i j : nat) (q : list nat) : Prop :=
  exists a b, same_dir r1 a /\ same_dir r2 b /\ a <> [] /\ b <> [] /\
    last a 0%nat = i /\ hd 0%nat b = j /\ q = a ++ b.

(** Every pair of customers is in the savings list. *)
Definition complete_list (N : nat) (savings : list (Z * Z * nat * nat)) : Prop :=
  forall i j, (1 <= i < j)%nat -> (j < N)%nat -> exists s x, In (s, x, i, j) savings.

(** Once a pair that would lose has come up, only losing pairs follow. *)
Definition losing_last (D : matrix) (savings : list (Z * Z * nat * nat)) : Prop :=
  forall l1 s x i j l2, savings = l1 ++ (s, x, i, j) :: l2 -> D i 0%nat + D 0%nat j < D i j ->
  forall s' x' i' j', In (s', x', i', j') l2 -> D i' 0%nat + D 0%nat j' < D i' j'.

(** [q] is the route [r] extended by customer [j], driving between [j] and the end [i] of [r]. *)
Definition extended (r : list nat) (i j : nat) (q : list nat) : Prop :=
  r <> [] /\ ((hd 0%nat r = i /\ q = j :: r) \/ (last r 0%nat = i /\ q = r ++ [j])).
