(** * Specification for the TSP solvers with LKH and ACOTSP *)
From Verif Require Import M_text M_io Spec_io Spec_tspg Spec.

(** A TSPLIB file of a problem with [m] nodes and the distances [W] *)
Definition describes (file : text) (m : nat) (W : matrix) : Prop := exists P D',
  read_TSPLIB_CVRP parse_int 0%Z (fun z => z) (fun _ _ => None) file = Ok P /\ pb_D P = Some (m, D') /\ forall a b, (a < m)%nat -> (b < m)%nat -> D' a b = W a b.
Definition tour_length (W : matrix) (tour : list nat) : Z := path_cost W (tour ++ firstn 1 tour).
(** A tour file as LKH writes it; nodes are numbered from 1 in it. *)
Definition ordinary (l : text) : Prop := one_line l /\ contains (str "Length = ") (strip l) = false /\ strip l <> str "TOUR_SECTION".
Definition tour_lines (tour : list nat) : list text := map (fun k => print_int (Z.of_nat k + 1)) tour.
Definition tour_file (tour : list nat) (len : Z) (file : text) : Prop := exists pre mid, Forall ordinary pre /\ Forall ordinary mid /\
  file = file_of (pre ++ [str "COMMENT : Length = " ++ print_int len] ++ mid ++ [str "TOUR_SECTION"] ++ tour_lines tour ++ [str "-1"; str "EOF"]).
(** LKH writes a tour of all nodes with its length. *)
Definition lkh_writes_tours (lkh : text -> text) : Prop := forall file m W, describes file m W -> (4 <= m)%nat ->
  exists tour, Permutation tour (seq 0 m) /\ tour_file tour (tour_length W tour) (lkh file).
(** LKH finds a shortest tour. *)
Definition lkh_optimal (lkh : text -> text) : Prop := forall file m W, describes file m W -> (4 <= m)%nat ->
  exists tour, Permutation tour (seq 0 m) /\ tour_file tour (tour_length W tour) (lkh file) /\ forall other, Permutation other (seq 0 m) -> (tour_length W tour <= tour_length W other)%Z.
(** ACOTSP prints one or more tours of all nodes, numbered from 0, and other lines. *)
Definition best_line (tour : list nat) : text := str "best solution so far is" ++ flat_map (fun k => str " " ++ print_int (Z.of_nat k)) tour.
Definition aco_prints_tours (aco : text -> text) : Prop := forall file m W, describes file m W -> (4 <= m)%nat ->
  exists lines, aco file = file_of lines /\ (exists tour, In (best_line tour) lines) /\
    Forall (fun l => one_line l /\ (contains (str "best solution so far is") (firstn 25 l) = false \/ exists tour, Permutation tour (seq 0 m) /\ l = best_line tour)) lines.
(** A closed tour of the nodes, from the depot if it is one of them *)
Definition round_trip (nodes sol : list nat) : Prop := exists s, sol = s ++ firstn 1 s /\ Permutation s nodes /\ (In 0%nat nodes -> hd_error s = Some 0%nat).
(** A distance matrix *)
Definition distances (D : matrix) (nodes : list nat) : Prop := symmetric D /\ forall i, In i nodes -> D i i = 0%Z.
