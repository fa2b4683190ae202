(** * Model of examples/breedam_to_tsplib.py: converting van Breedam's files

    The file is the text it contains (ASCII); printing the names of the files is left out. *)
From Verif Require Import Spec PyBase M_text.

(** string.printable, line 41: digits, letters, punctuation and the blanks \t\n\r\x0b\x0c and " ". *)
Definition in_printable (c : ascii) : bool :=
  let n := nat_of_ascii c in
  ((n =? 9) || (n =? 10) || (n =? 11) || (n =? 12) || (n =? 13) || ((32 <=? n) && (n <? 127)))%nat.

(** The capacity of lines 29-34. *)
Definition breedam_Q (bn : text) : Z :=
  if contains (str "G1") bn || contains (str "1PP") bn || contains (str "2PP") bn then 100
  else if contains (str "G2") bn || contains (str "3PP") bn || contains (str "4PP") bn then 50
  else if contains (str "G3") bn || contains (str "5PP") bn || contains (str "6PP") bn then 200
  else 0.

(** [int(e) for e in l.split()], line 42 *)
Fixpoint ints (ws : list text) : outcome (list Z) :=
  match ws with
  | [] => Ok []
  | w :: t => do z <- or_raise ValueError (parse_int w); do r <- ints t; Ok (z :: r)
  end.

(** The loop over the lines, 39-54: data['xys'] and data['qs']; N is their length. *)
Fixpoint breedam_rows (ls : list text) (xys : list (Z * Z * Z)) (qs : list (Z * Z)) : outcome (list (Z * Z * Z) * list (Z * Z)) :=
  match ls with
  | [] => Ok (xys, qs)
  | l :: t =>
      do parts <- ints (split (filter in_printable l));
      match parts with
      | [idx; x; y; _; _; _; _; q; _; _] => breedam_rows t (xys ++ [(idx + 1, x, y)]) (qs ++ [(idx + 1, q)])
      | _ => breedam_rows t xys qs                                                     (* continue *)
      end
  end.

(** breedam_to_tsplib95, lines 20-76: the text written *)
Definition breedam_to_tsplib95 (bn file : text) : outcome text :=
  do data <- breedam_rows (readlines file) [] [];
  let '(xys, qs) := data in
  Ok (str "NAME : " ++ bn ++ [newline] ++
      str "COMMENT : Automatically converted from a van Breedam DAT file." ++ [newline] ++
      str "TYPE : CVRP" ++ [newline] ++
      str "DIMENSION : " ++ print_int (Z.of_nat (List.length xys)) ++ [newline] ++
      str "EDGE_WEIGHT_TYPE : EUC_2D" ++ [newline] ++
      str "CAPACITY : " ++ print_int (breedam_Q bn) ++ [newline] ++
      str "NODE_COORD_SECTION" ++ [newline] ++
      flat_map (fun '(i, x, y) => print_int i ++ str " " ++ print_int x ++ str " " ++ print_int y ++ [newline]) xys ++
      str "DEMAND_SECTION" ++ [newline] ++
      flat_map (fun '(i, q) => print_int i ++ str " " ++ print_int q ++ [newline]) qs ++
      str "DEPOT_SECTION" ++ [newline] ++
      str " 1" ++ [newline] ++ str " -1" ++ [newline] ++
      str "EOF" ++ [newline]).
