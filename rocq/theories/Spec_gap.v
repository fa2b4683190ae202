(** * Specification for the generalized assignment heuristic *)
From Verif Require Import Spec Spec_inter Spec_rfcs Spec_savings PyBase M_gap.

(** The customers of route [k] *)
Definition on_route (Y : nat -> nat -> bool) (N k : nat) : list nat := filter (fun i => Y i k) (seq 1 (N - 1)).
(** Everybody is on exactly one route, and the loads are at most the capacity. *)
Definition hard (p : gap) (Y : nat -> nat -> bool) : Prop :=
  (forall i, (1 <= i < gp_N p)%nat -> exists k, (k < gp_K p)%nat /\ Y i k = true /\ forall k', (k' < gp_K p)%nat -> Y i k' = true -> k' = k) /\
  (forall k, (k < gp_K p)%nat -> within (gp_C p) 0 (demand (gp_d p) (on_route Y (gp_N p) k))).
(** The sum of the costs on each route, times the multiplier in hundredths, is at most the length limit. *)
Definition short (p : gap) (Y : nat -> nat -> bool) : Prop :=
  forall k, (k < gp_K p)%nat -> within (option_map (Z.mul 100) (gp_L p)) 0 (gp_mult p * sumZ (map (fun i => gp_cost p i k) (on_route Y (gp_N p) k))).
Definition gap_value (p : gap) (Y : nat -> nat -> bool) : Z :=
  sumZ (map (fun k => sumZ (map (fun i => gp_cost p i k) (on_route Y (gp_N p) k))) (seq 0 (gp_K p))).
(** What is expected of the integer program solver: an optimal answer meets the constraints and no other that does
    is cheaper; "infeasible" is only said when nothing meets them; with soft length constraints the others are met.
    It may run out of time or be interrupted. *)
Definition gap_honest (gurobi : nat -> gap -> bool -> gap_status) : Prop := forall t p,
  match gurobi t p false with
  | GOptimal Y => hard p Y /\ short p Y /\ forall Y', hard p Y' -> short p Y' -> gap_value p Y <= gap_value p Y'
  | GInfeasible => forall Y, ~ (hard p Y /\ short p Y)
  | GOther => False
  | _ => True
  end /\
  match gurobi t p true with
  | GOptimal Y => hard p Y
  | GInfeasible => forall Y, ~ hard p Y
  | GOther => False
  | _ => True
  end.
(** It always has the time to answer. *)
Definition gap_patient (gurobi : nat -> gap -> bool -> gap_status) : Prop := forall t p b, gurobi t p b <> GTimeLimit /\ gurobi t p b <> GInterrupted.
(** Its answers depend on nothing but the costs of the customers of the program for its routes, and the rest of the program. *)
Definition same_gap (p q : gap) : Prop :=
  gp_N p = gp_N q /\ gp_K p = gp_K q /\ gp_d p = gp_d q /\ gp_C p = gp_C q /\ gp_L p = gp_L q /\ gp_mult p = gp_mult q /\
  forall i k, (1 <= i < gp_N p)%nat -> (k < gp_K p)%nat -> gp_cost p i k = gp_cost q i k.
Definition gap_reads (gurobi : nat -> gap -> bool -> gap_status) : Prop := forall t p q b, same_gap p q -> gurobi t p b = gurobi t q b.

(** [found]: the solutions of the list [rss] with their costs and numbers of routes *)
Definition found_are (D : matrix) (found : list (list nat * Z * nat)) (rss : list (list (list nat))) : Prop :=
  found = map (fun rs => (encode rs, routes_cost D rs, length rs)) rss.
(** [s]: the best of [rss], or nothing if there is none *)
Definition best_among (minimize_K : bool) (D : matrix) (s : option (list nat)) (rss : list (list (list nat))) : Prop :=
  match s with
  | None => rss = []
  | Some sol => exists rs, sol = encode rs /\ In rs rss /\ Forall (not_beaten minimize_K D rs) rss
  end.
(** Every customer is on a route, and the routes are within the limits. *)
Definition reaches (N : nat) (D : matrix) (d : demands) (C L : limit) (eps : Z) (rs : list (list nat)) : Prop :=
  (forall i, (1 <= i < N)%nat -> In i (concat rs)) /\ Forall (fun r => feasible D d C L eps eps r /\ forall i, In i r -> (1 <= i < N)%nat) rs.
(** The customers' loads on each route are at most the capacity. *)
Definition packs (N : nat) (d : demands) (c : Z) (rs : list (list nat)) : Prop := covers N rs /\ Forall (fun r => demand d r <= c) rs.
(** The two choices of seeds differ at most in the last seed point. *)
Definition same_but_last (s1 s2 : nat -> nat -> option (nat -> nat -> Z)) : Prop := forall K t,
  match s1 K t, s2 K t with
  | None, None => True
  | Some a, Some b => forall k i, (k + 1 < K)%nat -> a k i = b k i
  | _, _ => False
  end.
(** The sum of the costs of taking each customer along on the way to and from the seed of its route; [sd k i]: the
    distance from the seed of route [k] to node [i] *)
Definition insertion (D : matrix) (sd : nat -> nat -> Z) (gs : list (list nat)) : Z :=
  sumZ (map (fun k => sumZ (map (fun i => D 0%nat i + sd k i - sd k 0%nat)%Z (nth k gs []))) (seq 0 (length gs))).
(** The routes [rs] are those of customers given to [K] seeds such that nobody can give them to the seeds at less cost. *)
Definition cheapest_for (N : nat) (D : matrix) (d : demands) (c : Z) (sd : nat -> nat -> Z) (K : nat) (rs : list (list nat)) : Prop :=
  exists gs, length gs = K /\ packs N d c gs /\ (forall r, In r rs -> exists g, In g gs /\ Permutation g r) /\
    forall gs', length gs' = K -> packs N d c gs' -> (insertion D sd gs <= insertion D sd gs')%Z.
(** The depot, then the seeds *)
Definition after_depot (D : matrix) (sd : nat -> nat -> Z) : nat -> nat -> Z := fun k => match k with O => D 0%nat | S k' => sd k' end.

(** The weights are shared out among the groups: each group gets nothing of the customers outside it and [target]
    altogether, and the shares of a customer add up to its weight. *)
Definition shared_out (w : nat -> Z) (target : Z) (customers : list nat) (groups : list (list nat)) : Prop :=
  exists shares : list (nat -> Z),
    Forall2 (fun sh g => (forall n, 0 <= sh n) /\ (forall n, ~ In n g -> sh n = 0) /\ NoDup g /\ sumZ (map sh g) = target) shares groups /\
    forall n, In n customers -> sumZ (map (fun sh => sh n) shares) = w n.
