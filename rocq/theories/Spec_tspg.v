(** * Specification for the TSP solver with Gurobi *)
From Verif Require Import Spec M_tspg.

(** Lines 86-89: every node is on two edges, and none is to itself. *)
Definition degree_two (n : nat) (x : nat -> nat -> bool) : Prop :=
  forall i, (i < n)%nat -> length (filter (var x i) (seq 0 n)) = 2%nat /\ x i i = false.
(** [x] meets the constraint the callback adds on seeing the solution [y]. *)
Definition meets (n : nat) (x y : nat -> nat -> bool) : Prop :=
  forall tour, subtour_elim y n = Some tour -> (inside x tour <= length tour - 1)%nat.
(** What is expected of Gurobi: the callback has seen some solutions, among them the one that is returned.  It meets all
    constraints that were added, and nothing that does costs less.  It may run out of time or be interrupted. *)
Definition tsp_honest (gurobi : nat -> (nat -> nat -> Z) -> tsp_status) : Prop := forall n c,
  match gurobi n c with
  | TspSolved x => exists seen, In x seen /\ Forall (degree_two n) seen /\ Forall (meets n x) seen /\
                     forall x', degree_two n x' -> Forall (meets n x') seen -> (tsp_obj n c x <= tsp_obj n c x')%Z
  | TspInfeasible => exists seen, Forall (degree_two n) seen /\ forall x', degree_two n x' -> ~ Forall (meets n x') seen
  | _ => True
  end.
Definition tsp_patient (gurobi : nat -> (nat -> nat -> Z) -> tsp_status) : Prop := forall n c, gurobi n c <> TspTimeLimit /\ gurobi n c <> TspInterrupted.
(** [sol]: a closed tour of the nodes [l], from the first of them *)
Definition closed_tour (l sol : list nat) : Prop := exists first t, sol = first :: t ++ [first] /\ hd_error l = Some first /\ Permutation (first :: t) l.
(** The length of a closed tour of the nodes [l], and no other has a smaller one *)
Definition shortest_length (D : matrix) (l : list nat) (len : Z) : Prop := forall sol, closed_tour l sol -> (len <= path_cost D sol)%Z.
