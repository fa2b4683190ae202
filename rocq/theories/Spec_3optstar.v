(** * Specification vocabulary: the 3-opt* neighbourhood of a solution *)
From Verif Require Import Spec.

(** [b] is cut behind its last visit to the depot. *)
Definition depot_split (b b1 b2 : list nat) : Prop := b = b1 ++ b2 /\ last b1 1%nat = 0%nat /\ customers_only b2.

(** Remove three edges of the giant tour and reconnect: the parts [a] (with the first depot) and
    [e] (with the last one) keep their direction; [b] and [c] may be exchanged and reversed.  A part
    with a visit to the depot may also be moved behind [e], rotated there so that the tour
    still ends at the depot. *)
Definition reconnections (a b c e : list nat) : list (list nat) :=
  [ a ++ b ++ rev c ++ e; a ++ rev b ++ c ++ e; a ++ rev b ++ rev c ++ e;
    a ++ c ++ b ++ e; a ++ c ++ rev b ++ e; a ++ rev c ++ b ++ e; a ++ rev c ++ rev b ++ e ].
Definition reconnections_b (a b1 b2 c e : list nat) : list (list nat) :=
  [ a ++ c ++ e ++ b2 ++ b1; a ++ rev c ++ e ++ b2 ++ b1; a ++ e ++ b2 ++ c ++ b1; a ++ e ++ b2 ++ rev c ++ b1 ].
Definition reconnections_c (a b c1 c2 e : list nat) : list (list nat) :=
  [ a ++ b ++ e ++ c2 ++ c1; a ++ rev b ++ e ++ c2 ++ c1; a ++ e ++ c2 ++ b ++ c1; a ++ e ++ c2 ++ rev b ++ c1 ].

Definition neighbour_3optstar (sol sol' : list nat) : Prop :=
  exists a b c e, sol = a ++ b ++ c ++ e /\ a <> [] /\ b <> [] /\ c <> [] /\ e <> [] /\
    ( In sol' (reconnections a b c e) \/
      (exists b1 b2, depot_split b b1 b2 /\ In sol' (reconnections_b a b1 b2 c e)) \/
      (exists c1 c2, depot_split c c1 c2 /\ In sol' (reconnections_c a b c1 c2 e)) \/
      (exists b1 b2 c1 c2, depot_split b b1 b2 /\ depot_split c c1 c2 /\ sol' = a ++ e ++ b2 ++ b1 ++ c2 ++ c1) ).
