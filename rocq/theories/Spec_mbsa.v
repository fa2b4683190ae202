(** * Specifications for the matching based savings algorithm *)
From Verif Require Import Spec Spec_inter Spec_rfcs.
Require Import Sorting.Sorted.

(** The customers of two groups, in ascending order. *)
Definition joined (g h u : list nat) : Prop := Permutation u (g ++ h) /\ StronglySorted lt u.

(** What is saved if the two are served by one tour of the TSP solver [f] instead of two. *)
Definition gain (f : tsp) (g h u : list nat) : Z := snd (f (0%nat :: g)) + snd (f (0%nat :: h)) - snd (f (0%nat :: u)).

(** One vehicle can serve both. *)
Definition fits (d : demands) (C L : limit) (ceps seps : Z) (f : tsp) (g h u : list nat) : Prop :=
  within C ceps (demand d (g ++ h)) /\ within L seps (snd (f (0%nat :: u))).

(** Two groups that fit are replaced by their union, and no other two that fit save more. *)
Definition best_join (d : demands) (C L : limit) (ceps seps : Z) (f : tsp) (gs gs' : list (list nat)) : Prop :=
  exists g h rest u,
    Permutation gs (g :: h :: rest) /\ joined g h u /\ Permutation gs' (u :: rest) /\ fits d C L ceps seps f g h u /\
    forall g2 h2 rest2 u2, Permutation gs (g2 :: h2 :: rest2) -> joined g2 h2 u2 -> fits d C L ceps seps f g2 h2 u2 ->
      gain f g2 h2 u2 <= gain f g h u.
(** Any number of times *)
Inductive best_joins (d : demands) (C L : limit) (ceps seps : Z) (f : tsp) : list (list nat) -> list (list nat) -> Prop :=
| no_join gs : best_joins d C L ceps seps f gs gs
| one_more gs gs1 gs2 : best_join d C L ceps seps f gs gs1 -> best_joins d C L ceps seps f gs1 gs2 -> best_joins d C L ceps seps f gs gs2.

(** The routes are the tours the TSP solver gives for the groups. *)
Definition toured (f : tsp) (gs rs : list (list nat)) : Prop := Forall2 (fun g r => fst (f (0%nat :: g)) = wrap r) gs rs.

(** ** The integer program as the code poses it *)

(** The pairs whose variable is one *)
Definition picked {A} (x : list bool) (l : list A) : list A := map fst (filter snd (combine l x)).
(** For each first index that occurs, exactly one of its pairs *)
Definition one_per_row (w : list (Z * (nat * nat))) (x : list bool) : Prop :=
  length x = length w /\
  forall k, In k (map (fun e => fst (snd e)) w) ->
    length (filter (fun e => Nat.eqb (fst (snd e)) k) (picked x w)) = 1%nat.
Definition total (w : list (Z * (nat * nat))) (x : list bool) : Z := sumZ (map fst (picked x w)).
Definition optimal (w : list (Z * (nat * nat))) (x : list bool) : Prop :=
  one_per_row w x /\ forall y, one_per_row w y -> total w y <= total w x.

(** ** A maximum weight matching, which the paper asks for *)
Definition is_matching (m : list (nat * nat)) : Prop := NoDup (flat_map (fun p => [fst p; snd p]) m).
Definition matching_weight (v : nat -> nat -> Z) (m : list (nat * nat)) : Z := sumZ (map (fun p => v (fst p) (snd p)) m).

(** In a row with the given positions *)
Definition strictly_triangle (N : nat) (D : matrix) : Prop :=
  forall i j, (1 <= i < N)%nat -> (1 <= j < N)%nat -> i <> j -> D i j < D i 0%nat + D 0%nat j.

(** Two tours are never shorter than the solver's tour of all their customers. *)
Definition joins_never_cost (N : nat) (f : tsp) : Prop :=
  forall g h u, g <> [] -> h <> [] -> joined g h u -> (forall x, In x u -> (1 <= x < N)%nat) -> 0 <= gain f g h u.

(** Everybody can share a vehicle with somebody. *)
Definition everyone_has_a_partner (N : nat) (d : demands) (C L : limit) (ceps seps : Z) (f : tsp) : Prop :=
  forall i, (1 <= i < N)%nat -> exists j u, (1 <= j < N)%nat /\ j <> i /\ joined [i] [j] u /\ fits d C L ceps seps f [i] [j] u.
