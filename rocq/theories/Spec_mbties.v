(** * Specification of the choice among equal savings in the matching based savings algorithm *)
From Verif Require Import Spec Spec_mbsa.

(** What all pairs with a given route save together. *)
Definition saved_with (sv : list (Z * (nat * nat))) (i : nat) : Z :=
  sumZ (map fst (filter (fun e => Nat.eqb (fst (snd e)) i || Nat.eqb (snd (snd e)) i) sv)).
(** What the other pairs with one of the two routes of a pair save: joining the pair gives this up. *)
Definition given_up (sv : list (Z * (nat * nat))) (e : Z * (nat * nat)) : Z :=
  saved_with sv (fst (snd e)) + saved_with sv (snd (snd e)) - 2 * fst e.
(** The pairs are pairs of two different ones of [n] routes. *)
Definition pairs_of (n : nat) (sv : list (Z * (nat * nat))) : Prop :=
  Forall (fun e => fst (snd e) <> snd (snd e) /\ fst (snd e) < n /\ snd (snd e) < n)%nat sv.
