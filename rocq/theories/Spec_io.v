(** * Specification vocabulary for instance and solution files (C33-C36, C46) *)
From Verif Require Import Spec M_text.

(** A file of lines: every line is ended by a newline. *)
Definition file_of (lines : list text) : text := flat_map (fun l => l ++ [newline]) lines.

(** Characters of numbers and blanks: no colon, no newline, no capital letter. *)
Definition plain_char (c : ascii) : Prop :=
  c <> ":"%char /\ c <> newline /\ (nat_of_ascii c < 65 \/ 90 < nat_of_ascii c)%nat.
Definition plain (l : text) : Prop := Forall plain_char l.
Definition one_line (l : text) : Prop := Forall (fun c => c <> newline) l.

(** Explicit matrix formats of TSPLIB: name and the cells (row, column) in the order in which the
    weights are listed. *)
Inductive wformat := FullMatrix | UpperRow | LowerRow | UpperDiagRow | LowerDiagRow | LowerCol.
Definition format_name (f : wformat) : text :=
  match f with
  | FullMatrix => str "FULL_MATRIX" | UpperRow => str "UPPER_ROW" | LowerRow => str "LOWER_ROW"
  | UpperDiagRow => str "UPPER_DIAG_ROW" | LowerDiagRow => str "LOWER_DIAG_ROW" | LowerCol => str "LOWER_COL"
  end.
Definition row (r : nat) (cols : list nat) : list (nat * nat) := map (fun c => (r, c)) cols.
Definition col (c : nat) (rows : list nat) : list (nat * nat) := map (fun r => (r, c)) rows.
Definition cells (f : wformat) (n : nat) : list (nat * nat) :=
  match f with
  | FullMatrix => flat_map (fun r => row r (seq 0 n)) (seq 0 n)
  | UpperRow => flat_map (fun r => row r (seq (r + 1) (n - (r + 1)))) (seq 0 n)
  | LowerRow => flat_map (fun r => row r (seq 0 r)) (seq 0 n)
  | UpperDiagRow => flat_map (fun r => row r (seq r (n - r))) (seq 0 n)
  | LowerDiagRow => flat_map (fun r => row r (seq 0 (r + 1))) (seq 0 n)
  | LowerCol => flat_map (fun c => col c (seq (c + 1) (n - (c + 1)))) (seq 0 n)
  end%nat.
Definition has_diagonal (f : wformat) : bool :=
  match f with FullMatrix | UpperDiagRow | LowerDiagRow => true | _ => false end.

(** The weights of a symmetric matrix, with a zero diagonal where the format does not list it. *)
Definition storable {V} (zero : V) (f : wformat) (n : nat) (M : nat -> nat -> V) : Prop :=
  (forall a b, (a < n -> b < n -> M a b = M b a)%nat) /\
  (has_diagonal f = false -> forall a, (a < n)%nat -> M a a = zero).

(** Header lines that do not concern the reader: they have a colon and none of its field names. *)
Definition inert_header (l : text) : Prop :=
  one_line l /\ exists field value, split_once ":"%char (strip l) = Some (field, value) /\
  strip field <> str "TYPE" /\
  Forall (fun k => contains k (strip field) = false)
    [str "DIMENSION"; str "CAPACITY"; str "EDGE_WEIGHT_TYPE"; str "EDGE_WEIGHT_FORMAT"].

(** A file with an explicit matrix: header, weight section, EOF, anything. *)
Definition weight_file (pre : list text) (n : nat) (f : wformat) (body rest : list text) : text :=
  file_of (pre ++ [ str "DIMENSION : " ++ print_int (Z.of_nat n);
                    str "EDGE_WEIGHT_TYPE : EXPLICIT";
                    str "EDGE_WEIGHT_FORMAT : " ++ format_name f;
                    str "EDGE_WEIGHT_SECTION" ] ++ body ++ str "EOF" :: rest).

(** Node k first, the others in order: the old index of a new index. *)
Definition old_index (k i : nat) : nat :=
  match i with O => k | S i' => if (i <=? k)%nat then i' else i end.
Definition moved_front {A} (k : nat) (l l' : list A) : Prop :=
  List.length l' = List.length l /\
  forall i, (i < List.length l)%nat -> nth_error l' i = nth_error l (old_index k i).

(** VRPH solutions: the number of nodes, then the customers, the first of each route negated, then
    0.  [vrph_decode] returns the customers before the first negative number, and the routes. *)
Fixpoint vrph_decode (l : list Z) : list nat * list (list nat) :=
  match l with
  | [] => ([], [])
  | x :: t =>
      if x =? 0 then ([], [])
      else let '(open, rs) := vrph_decode t in
           if x <? 0 then ([], (Z.to_nat (- x) :: open) :: rs) else (Z.to_nat x :: open, rs)
  end.
Definition vrph_routes (l : list Z) : list (list nat) := snd (vrph_decode (tl l)).

(** How numbers are written: [print_val] is str(x) and [parse_float] is float(s).  Printed numbers are
    words without colon and capital letters, and are read back as they were; integers printed by
    "%d" are read as [of_int]. *)
Record number_text {V} (print_val : V -> text) (parse_float : text -> option V) (of_int : Z -> V) : Prop := {
  nt_read : forall v, parse_float (print_val v) = Some v;
  nt_word : forall v, print_val v <> [] /\ Forall (fun c => plain_char c /\ is_space c = false) (print_val v);
  nt_int : forall z, parse_float (print_int z) = Some (of_int z) }.

(** The nodes of a file written for a selection (none: all nodes). *)
Definition selection (n : nat) (selected : list nat) : list nat :=
  match selected with [] => seq 0 n | _ => selected end.

(** What a symmetric file keeps of the selected part of a matrix: the entries above its diagonal. *)
Definition upper_part {V} (zero : V) (D : nat -> nat -> V) (idxs : list nat) (a b : nat) : V :=
  if (a <? b)%nat then D (nth a idxs 0%nat) (nth b idxs 0%nat)
  else if (b <? a)%nat then D (nth b idxs 0%nat) (nth a idxs 0%nat)
  else zero.

(** A line that neither ends the file nor opens the depot section. *)
Definition ordinary (l : text) : Prop := one_line l /\ contains (str "EOF") l = false /\ contains (str "DEPOT_SECTION") l = false.
Definition depot_lines (k : nat) : list text := [str "DEPOT_SECTION"; print_int (Z.of_nat k + 1); str "-1"; str "EOF"].
(** The same with two depots. *)
Definition two_depots_lines (k k' : nat) : list text :=
  [str "DEPOT_SECTION"; print_int (Z.of_nat k + 1); print_int (Z.of_nat k' + 1); str "-1"; str "EOF"].
Definition list_fits {A} (n : nat) (l : option (list A)) : Prop := match l with Some l => List.length l = n | None => True end.
Definition list_moved {A} (k : nat) (l l' : option (list A)) : Prop :=
  match l, l' with Some l, Some l' => moved_front k l l' | None, None => True | _, _ => False end.

(** The capacity found in a written file: the number of nodes if none was given (or 0). *)
Definition written_C (vrp : bool) (n : nat) (C : option Z) : option Z :=
  if vrp then Some (match C with Some c => if c =? 0 then Z.of_nat n else c | None => Z.of_nat n end) else None.
(** The demands found in a written file: the depot has none, customers have 1 if none were given. *)
Definition demand_values (n : nat) (d : list Z) : list Z :=
  0 :: match d with [] => repeat 1 (n - 1) | _ :: t => t end.

(** A solution file: one numbered line per route, the customers separated by tabs. *)
Definition tab : ascii := ascii_of_nat 9.
Definition route_line (k : nat) (r : list nat) : text :=
  str "Route #" ++ print_int (Z.of_nat k) ++ str ": " ++ join [tab] (map (fun n => print_int (Z.of_nat n)) r).
Fixpoint route_lines (k : nat) (rs : list (list nat)) : list text :=
  match rs with [] => [] | r :: t => route_line k r :: route_lines (S k) t end.

(** A service time line "node time". *)
Definition service_line (p : Z * Z) : text := print_int (fst p) ++ str " " ++ print_int (snd p).

(** Lines without any of the words of the additional constraints. *)
Definition quiet (l : text) : Prop :=
  Forall (fun w => contains w l = false) [str "DISTANCE"; str "SERVICE_TIME"; str "VEHICLES"; str "SVC_TIME_SECTION"].
Definition quiet_line (l : text) : Prop := one_line l /\ quiet (l ++ [newline]).

(** The matrix is symmetric and zero on the diagonal, for the nodes of a list. *)
Definition symmetric_on {V} (zero : V) (D : nat -> nat -> V) (nodes : list nat) : Prop :=
  (forall i j, In i nodes -> In j nodes -> D i j = D j i) /\ (forall i, In i nodes -> D i i = zero).
