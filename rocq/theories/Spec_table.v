(** * Specification for the table of results *)
From Verif Require Import Spec M_text M_cli M_cli2.
From Coq Require Import Sorting.Sorted.

(** In alphabetical order, no name twice *)
Definition alphabetical (names : list text) : Prop := StronglySorted (fun a b => text_ltb a b = true) names.

(** The quality [v] was reported for the algorithm named [a] on the problem named [f]; [None] is infinity. *)
Definition reported (bn algo_name : nat -> text) (reports : list report) (f a : text) (v : option Z) : Prop :=
  exists i j, bn i = f /\ algo_name j = a /\
    match v with
    | Some q => exists sol ok K stop, In (Solved i j sol ok q K stop) reports
    | None => exists stop, In (Unsolved i j stop) reports
    end.

(** The titles of the algorithms with a result on the problem named [f] *)
Definition columns (bn algo_name : nat -> text) (reports : list report) (f : text) (titles : list text) : Prop :=
  alphabetical titles /\ forall a, In a titles <-> exists v, reported bn algo_name reports f a v.

(** [K] is the least number of routes of the solutions reported for the problem named [f]. *)
Definition fewest_routes (bn : nat -> text) (reports : list report) (f : text) (K : nat) : Prop :=
  (exists i j sol ok q stop, bn i = f /\ In (Solved i j sol ok q K stop) reports) /\
  forall i j sol ok q K' stop, bn i = f -> In (Solved i j sol ok q K' stop) reports -> (K <= K')%nat.

(** Some algorithm solved the problem named [f]. *)
Definition solved (bn : nat -> text) (reports : list report) (f : text) : Prop := exists K, fewest_routes bn reports f K.

(** A row of the table whose columns have the given titles *)
Definition true_row (bn algo_name : nat -> text) (reports : list report) (titles : list text) (f : text)
           (row : text * nat * list (option Z)) : Prop :=
  let '(f', K, vs) := row in
  f' = f /\ fewest_routes bn reports f K /\ Forall2 (reported bn algo_name reports f) titles vs.
