(** * Specification vocabulary for the header of a file (C129) *)
From Verif Require Import Spec M_text Spec_io Spec_coord.
From Coq Require Import Permutation.

(** What a header line says.  [Remark] is any other field, such as NAME or COMMENT. *)
Inductive header_item := Remark | Kind | Dimension (n : Z) | Capacity (c : Z) | WeightType (t : text).

(** A line "field : value" that says so; blanks around field and value do not matter. *)
Definition header_line (l : text) (h : header_item) : Prop :=
  one_line l /\ exists field value, split_once ":"%char (strip l) = Some (field, value) /\
  match h with
  | Remark => strip field <> str "TYPE" /\
      Forall (fun k => contains k (strip field) = false)
        [str "DIMENSION"; str "CAPACITY"; str "EDGE_WEIGHT_TYPE"; str "EDGE_WEIGHT_FORMAT"]
  | Kind => strip field = str "TYPE" /\ contains (str "CVRP") value = true
  | Dimension n => strip field = str "DIMENSION" /\ parse_int value = Some n
  | Capacity c => strip field = str "CAPACITY" /\ parse_int value = Some c
  | WeightType t => strip field = str "EDGE_WEIGHT_TYPE" /\ strip value = t
  end.

Definition is_datum (h : header_item) : bool := match h with Remark | Kind => false | _ => true end.

(** A header that gives the dimension, the capacity and the edge weight type once each, in any order, among any number of
    other fields. *)
Definition header_of (n : nat) (c : Z) (ewt : text) (header : list text) : Prop :=
  exists items, Forall2 header_line header items /\
  Permutation (filter is_datum items) [Dimension (Z.of_nat n); Capacity c; WeightType ewt].

(** A file with such a header, coordinates, demands and the depot 1. *)
Definition tsplib_file (header points loads : list text) : text :=
  file_of (header ++ str "NODE_COORD_SECTION" :: points ++
           str "DEMAND_SECTION" :: loads ++ [str "DEPOT_SECTION"; str " 1"; str " -1"; str "EOF"]).

(** The edge weight types of TSPLIB that are supported, and a line that asks for another one or for another kind of problem. *)
Definition supported : list text :=
  [str "EUC_2D"; str "CEIL_2D"; str "FLOOR_2D"; str "EXACT_2D"; str "MAX_2D"; str "MAN_2D"; str "ATT"; str "GEO"; str "EXPLICIT"].
Definition unsupported_line (l : text) : Prop :=
  one_line l /\ exists field value, split_once ":"%char (strip l) = Some (field, value) /\
  ((strip field = str "TYPE" /\ contains (str "CVRP") value = false /\ contains (str "TSP") value = false) \/
   (strip field = str "EDGE_WEIGHT_TYPE" /\ ~ In (strip value) supported)).
