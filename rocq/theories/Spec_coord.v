(** * Specification vocabulary for files with coordinates (C124, C125) *)
From Verif Require Import Spec M_text Spec_io.

(** The edge weight types computed from coordinates in the plane. *)
Definition planar (t : text) : Prop :=
  In t [str "EUC_2D"; str "CEIL_2D"; str "FLOOR_2D"; str "EXACT_2D"; str "MAX_2D"; str "MAN_2D"; str "ATT"].

(** A line "id x y", with anything after it, and a line "id demand". *)
Definition point_line {V} (parse_float : text -> option V) (l : text) (e : Z * (V * V)) : Prop :=
  plain l /\ exists a b c rest, split l = a :: b :: c :: rest /\ parse_int a = Some (fst e) /\
  parse_float b = Some (fst (snd e)) /\ parse_float c = Some (snd (snd e)).
Definition load_line {V} (parse_float : text -> option V) (l : text) (e : Z * V) : Prop :=
  plain l /\ exists a b rest, split l = a :: b :: rest /\ parse_int a = Some (fst e) /\ parse_float b = Some (snd e).

(** A file with coordinates and demands whose depot is the node 1. *)
Definition coord_file (pre : list text) (n : nat) (ewt : text) (c : Z) (points loads : list text) : text :=
  file_of (pre ++ [ str "TYPE : CVRP"; str "DIMENSION : " ++ print_int (Z.of_nat n); str "EDGE_WEIGHT_TYPE : " ++ ewt;
                    str "CAPACITY : " ++ print_int c; str "NODE_COORD_SECTION" ] ++ points ++
           str "DEMAND_SECTION" :: loads ++ [str "DEPOT_SECTION"; str " 1"; str " -1"; str "EOF"]).

(** The ids of n nodes in order. *)
Definition in_order {A} (n : nat) (l : list (Z * A)) : Prop := map fst l = map Z.of_nat (seq 1 n).
(** Every id once. *)
Definition each_id_once {A} (n : nat) (l : list (Z * A)) : Prop := Permutation (map fst l) (map Z.of_nat (seq 1 n)).
(** Node id has index id-1, the depot being 0. *)
Definition stored_by_id {A} (l : list (Z * A)) (found : option (list (option A))) : Prop :=
  exists f, found = Some f /\ List.length f = List.length l /\
  forall id v, In (id, v) l -> nth_error f (Z.to_nat (id - 1)) = Some (Some v).

(** ** The files of van Breedam *)

(** Tab, newline, vertical tab, form feed, return and the characters from the blank to the tilde. *)
Definition printable (c : ascii) : bool :=
  let n := nat_of_ascii c in ((9 <=? n) && (n <=? 13) || (32 <=? n) && (n <=? 126))%nat.
(** The integers of a line, other characters being ignored. *)
Definition line_ints (l : text) (xs : list Z) : Prop := map parse_int (split (filter printable l)) = map Some xs.
(** The place and demand of a line with ten numbers: id, x, y, two time windows, demand, service time, kind. *)
Definition stop_of (xs : list Z) : option ((Z * Z) * Z) :=
  match xs with [_; x; y; _; _; _; _; q; _; _] => Some ((x, y), q) | _ => None end.
Fixpoint stops_of (rows : list (list Z)) : list ((Z * Z) * Z) :=
  match rows with [] => [] | xs :: t => match stop_of xs with Some s => s :: stops_of t | None => stops_of t end end.
(** The capacity that goes with a file name. *)
Inductive capacity_of (name : text) : Z -> Prop :=
| Small : (exists w, In w [str "G1"; str "1PP"; str "2PP"] /\ contains w name = true) -> capacity_of name 100
| Half : (forall w, In w [str "G1"; str "1PP"; str "2PP"] -> contains w name = false) ->
    (exists w, In w [str "G2"; str "3PP"; str "4PP"] /\ contains w name = true) -> capacity_of name 50
| Large : (forall w, In w [str "G1"; str "1PP"; str "2PP"; str "G2"; str "3PP"; str "4PP"] -> contains w name = false) ->
    (exists w, In w [str "G3"; str "5PP"; str "6PP"] /\ contains w name = true) -> capacity_of name 200
| NoneKnown : (forall w, In w [str "G1"; str "1PP"; str "2PP"; str "G2"; str "3PP"; str "4PP"; str "G3"; str "5PP"; str "6PP"] ->
    contains w name = false) -> capacity_of name 0.
