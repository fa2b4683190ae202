(** * Model of verypy/cvrp_io.py: reading and writing instance and solution files

    The numbers of a file are of an arbitrary type [V]; [parse_float] is float(s) ([None] is
    ValueError), [vzero] is 0.0.  [geo] is _degrees_and_minutes_to_radians and [calcD] is
    calculate_D(points, None, edge_weight_type) ([None]: it raises); what they compute (square roots
    and trigonometry) is not modelled.  The conversion of an integral matrix to int (lines 376-380)
    does not change its values and is left out.  A file is the text it contains. *)
From Verif Require Import Spec PyBase M_text.

(** A line is handled according to the section it is in; [None], the empty text and
    'SVC_TIME_SECTION' (lines are ignored) are [SecOther]. *)
Inductive sect := SecWeights | SecDemand | SecDepot | SecCoord | SecDisplay | SecOther.

Section Reader.
Context {V : Type}.
Variable parse_float : text -> option V.
Variable vzero : V.
Variable geo : V -> V.
Variable calcD : option text -> list (option (V * V)) -> option (nat * (nat -> nat -> V)).

(** The local variables, lines 199-214.  [rs_N] is N (the depot excluded, so DIMENSION-1);
    a matrix is len(D) with its entries. *)
Record rstate := mkrs {
  rs_section : sect; rs_pos : nat; rs_ij : nat * nat; rs_N : Z; rs_C : option Z;
  rs_points : option (list (option (V * V))); rs_dd : option (list (option (V * V)));
  rs_demands : option (list (option V)); rs_D : option (nat * (nat -> nat -> V));
  rs_update : bool; rs_ewt : option text; rs_ewf : option text; rs_depots : list Z }.
Definition rs_init : rstate :=
  mkrs SecOther 0 (0, 0)%nat 0 None None None None None false None None [].

Definition set_section s x := mkrs x (rs_pos s) (rs_ij s) (rs_N s) (rs_C s) (rs_points s) (rs_dd s)
  (rs_demands s) (rs_D s) (rs_update s) (rs_ewt s) (rs_ewf s) (rs_depots s).
Definition set_N s x := mkrs (rs_section s) (rs_pos s) (rs_ij s) x (rs_C s) (rs_points s) (rs_dd s)
  (rs_demands s) (rs_D s) (rs_update s) (rs_ewt s) (rs_ewf s) (rs_depots s).
Definition set_C s x := mkrs (rs_section s) (rs_pos s) (rs_ij s) (rs_N s) x (rs_points s) (rs_dd s)
  (rs_demands s) (rs_D s) (rs_update s) (rs_ewt s) (rs_ewf s) (rs_depots s).
Definition set_ewt s x := mkrs (rs_section s) (rs_pos s) (rs_ij s) (rs_N s) (rs_C s) (rs_points s) (rs_dd s)
  (rs_demands s) (rs_D s) (rs_update s) (Some x) (rs_ewf s) (rs_depots s).
Definition set_ewf s x := mkrs (rs_section s) (rs_pos s) (rs_ij s) (rs_N s) (rs_C s) (rs_points s) (rs_dd s)
  (rs_demands s) (rs_D s) (rs_update s) (rs_ewt s) (Some x) (rs_depots s).
Definition set_matrix s ij D := mkrs (rs_section s) (rs_pos s) ij (rs_N s) (rs_C s) (rs_points s) (rs_dd s)
  (rs_demands s) D (rs_update s) (rs_ewt s) (rs_ewf s) (rs_depots s).
Definition set_depots s x := mkrs (rs_section s) (rs_pos s) (rs_ij s) (rs_N s) (rs_C s) (rs_points s) (rs_dd s)
  (rs_demands s) (rs_D s) (rs_update s) (rs_ewt s) (rs_ewf s) x.
Definition set_demands s pos x := mkrs (rs_section s) pos (rs_ij s) (rs_N s) (rs_C s) (rs_points s) (rs_dd s)
  (Some x) (rs_D s) (rs_update s) (rs_ewt s) (rs_ewf s) (rs_depots s).
Definition set_points s pos x := mkrs (rs_section s) pos (rs_ij s) (rs_N s) (rs_C s) (Some x) (rs_dd s)
  (rs_demands s) (rs_D s) (rs_update s) (rs_ewt s) (rs_ewf s) (rs_depots s).
Definition set_dd s pos x := mkrs (rs_section s) pos (rs_ij s) (rs_N s) (rs_C s) (rs_points s) (Some x)
  (rs_demands s) (rs_D s) (rs_update s) (rs_ewt s) (rs_ewf s) (rs_depots s).
Definition set_update s x := mkrs (rs_section s) (rs_pos s) (rs_ij s) (rs_N s) (rs_C s) (rs_points s) (rs_dd s)
  (rs_demands s) (rs_D s) x (rs_ewt s) (rs_ewf s) (rs_depots s).

Definition ewf_is (s : rstate) (f : text) : bool :=
  match rs_ewf s with Some g => text_eqb g f | None => false end.
Definition ewt_is (s : rstate) (f : text) : bool :=
  match rs_ewt s with Some g => text_eqb g f | None => false end.

(** EDGE_WEIGHT_TYPE values accepted, lines 236-239. *)
Definition known_ewt (t : text) : bool :=
  existsb (text_eqb t) [str "MAX_2D"; str "MAN_2D"; str "EXACT_2D"; str "CEIL_2D"; str "FLOOR_2D";
                        str "EUC_2D"; str "EXPLICIT"; str "GEO"; str "ATT"].

(** A field line, lines 224-242. *)
Definition read_field (s : rstate) (field value : text) : outcome rstate :=
  if text_eqb (str "TYPE") field
  then if contains (str "CVRP") value || contains (str "TSP") value then Ok s else Raise IOError
  else if contains (str "DIMENSION") field
  then do n <- or_raise ValueError (parse_int value); Ok (set_N s (n - 1))
  else if contains (str "CAPACITY") field
  then do c <- or_raise ValueError (parse_int value); Ok (set_C s (Some c))
  else if contains (str "EDGE_WEIGHT_TYPE") field
  then let t := strip value in if known_ewt t then Ok (set_ewt s t) else Raise IOError
  else if contains (str "EDGE_WEIGHT_FORMAT") field
  then Ok (set_ewf s (strip value))
  else Ok s.

(** Start of the weight section, lines 250-258; np.zeros raises ValueError for a negative size. *)
Definition start_weights (s : rstate) : outcome rstate :=
  if rs_N s + 1 <? 0 then Raise ValueError
  else
    let ij := if ewf_is s (str "LOWER_ROW") then (0, 1)%nat
              else if ewf_is s (str "UPPER_ROW") || ewf_is s (str "LOWER_COL") then (1, 0)%nat
              else (0, 0)%nat in
    Ok (set_matrix (set_section s SecWeights) ij (Some (Z.to_nat (rs_N s + 1), fun _ _ => vzero))).

(** The incrementers, lines 298-330; [n] is len(D). *)
Definition next_ij (s : rstate) (n : nat) (ij : nat * nat) : nat * nat :=
  let '(i, j) := ij in
  let i := if ewf_is s (str "LOWER_ROW") || ewf_is s (str "UPPER_ROW") || ewf_is s (str "LOWER_COL")
              || ewf_is s (str "FULL_MATRIX") || ewf_is s (str "LOWER_DIAG_ROW")
              || ewf_is s (str "UPPER_DIAG_ROW") then (i + 1)%nat else i in
  if ewf_is s (str "LOWER_ROW") then if Nat.eqb i j then (0, j + 1)%nat else (i, j)
  else if ewf_is s (str "UPPER_ROW") || ewf_is s (str "LOWER_COL")
  then if Nat.eqb i n then (j + 1 + 1, j + 1)%nat else (i, j)
  else if ewf_is s (str "FULL_MATRIX") then if Nat.eqb i n then (0, j + 1)%nat else (i, j)
  else if ewf_is s (str "LOWER_DIAG_ROW") then if Nat.eqb i (j + 1) then (0, j + 1)%nat else (i, j)
  else if ewf_is s (str "UPPER_DIAG_ROW") then if Nat.eqb i n then (j + 1, j + 1)%nat else (i, j)
  else (i, j).

Definition set_entry (D : nat -> nat -> V) (a b : nat) (v : V) : nat -> nat -> V :=
  fun x y => if Nat.eqb x a && Nat.eqb y b then v else D x y.

(** One weight, lines 292-330: both D[i][j] and D[j][i] are set. *)
Definition read_weight (s : rstate) (w : text) : outcome rstate :=
  match rs_D s with
  | None => Raise TypeError
  | Some (n, D) =>
      let '(i, j) := rs_ij s in
      do v <- or_raise ValueError (parse_float w);
      if (i <? n)%nat && (j <? n)%nat
      then Ok (set_matrix s (next_ij s n (i, j)) (Some (n, set_entry (set_entry D i j v) j i v)))
      else Raise IndexError
  end.
Fixpoint read_weights (s : rstate) (ws : list text) : outcome rstate :=
  match ws with
  | [] => Ok s
  | w :: t => do s1 <- read_weight s w; read_weights s1 t
  end.

(** [l[i] = x] *)
Definition assign {A} (l : list A) (i : nat) (x : A) : outcome (list A) :=
  if (i <? List.length l)%nat then Ok (set_nth i x l) else Raise IndexError.
Definition item {A} (l : list A) (i : nat) : outcome A := or_raise IndexError (nth_error l i).

(** A data line of the current section, lines 288-369; [line] is stripped and not empty. *)
Definition read_data (s : rstate) (line : text) : outcome rstate :=
  match rs_section s with
  | SecWeights => read_weights s (split line)
  | SecCoord =>
      let coords := split line in
      do a <- item coords 1; do x <- or_raise ValueError (parse_float a);
      do b <- item coords 2; do y <- or_raise ValueError (parse_float b);
      let xy := if ewt_is s (str "GEO") then (geo x, geo y) else (x, y) in
      do pts <- assign (match rs_points s with Some p => p | None => [] end) (rs_pos s) (Some xy);
      Ok (set_points s (rs_pos s + 1) pts)
  | SecDisplay =>
      let coords := split line in
      do a <- item coords 1; do x <- or_raise ValueError (parse_float a);
      do b <- item coords 2; do y <- or_raise ValueError (parse_float b);
      do pts <- assign (match rs_dd s with Some p => p | None => [] end) (rs_pos s) (Some (x, y));
      Ok (set_dd s (rs_pos s + 1) pts)
  | SecDemand =>
      do a <- item (split line) 1; do c <- or_raise ValueError (parse_float a);
      do ds <- assign (match rs_demands s with Some p => p | None => [] end) (rs_pos s) (Some c);
      Ok (set_demands s (rs_pos s + 1) ds)
  | SecDepot =>
      do v <- or_raise ValueError (parse_int line);
      if 0 <? v
      then if (1 <? List.length (rs_depots s ++ [v]))%nat then Raise IOError
           else Ok (set_depots s (rs_depots s ++ [v]))
      else Ok s
  | SecOther => Ok s
  end.

(** A line without colon other than EOF, lines 249-369. *)
Definition read_plain (s : rstate) (line : text) : outcome rstate :=
  if contains (str "EDGE_WEIGHT_SECTION") line then start_weights s
  else if contains (str "DEMAND_SECTION") line
  then Ok (set_demands (set_section s SecDemand) 0 (repeat None (Z.to_nat (rs_N s + 1))))
  else if contains (str "DEPOT_SECTION") line
  then Ok (mkrs SecDepot 0 (rs_ij s) (rs_N s) (rs_C s) (rs_points s) (rs_dd s)
             (rs_demands s) (rs_D s) (rs_update s) (rs_ewt s) (rs_ewf s) (rs_depots s))
  else if contains (str "NODE_COORD_SECTION") line
  then let s1 := set_points (set_section s SecCoord) 0 (repeat None (Z.to_nat (rs_N s + 1))) in
       Ok (if negb (ewt_is s (str "EXPLICIT")) then set_update s1 true else s1)
  else if contains (str "DISPLAY_DATA_SECTION") line
  then match rs_points s with
       | None => Ok (set_update (set_dd (set_section s SecDisplay) 0 (repeat None (Z.to_nat (rs_N s + 1)))) false)
       | Some _ => Ok (set_section s SecOther)
       end
  else if contains (str "SVC_TIME_SECTION") line then Ok (set_section s SecOther)
  else read_data s line.

(** The loop over the lines, lines 216-369; a line containing EOF ends it. *)
Fixpoint read_loop (s : rstate) (ls : list text) : outcome rstate :=
  match ls with
  | [] => Ok s
  | l :: t =>
      let line := strip l in
      match line with
      | [] => read_loop s t                                            (* continue *)
      | _ =>
          match split_once ":"%char line with
          | Some (field, value) => do s1 <- read_field s (strip field) value; read_loop s1 t
          | None => if contains (str "EOF") line then Ok s             (* break *)
                    else do s1 <- read_plain s line; read_loop s1 t
          end
      end
  end.

(** The completeness test of an explicit matrix, lines 359-368. *)
Definition complete (s : rstate) : outcome bool :=
  if negb (ewt_is s (str "EXPLICIT")) then Ok true
  else
    let '(i, j) := rs_ij s in
    let rows := ewf_is s (str "FULL_MATRIX") || ewf_is s (str "LOWER_ROW") || ewf_is s (str "LOWER_DIAG_ROW") in
    let cols := ewf_is s (str "UPPER_ROW") || ewf_is s (str "LOWER_COL") in
    let diag := ewf_is s (str "UPPER_DIAG_ROW") in
    match rs_D s with
    | None => if rows || cols || diag then Raise TypeError else Ok false     (* len(None) *)
    | Some (n, _) =>
        Ok (rows && Nat.eqb i 0 && Nat.eqb j n || cols && Nat.eqb i n && Nat.eqb j (n - 1)
            || diag && Nat.eqb i n && Nat.eqb j n)
    end.

(** The permutation of lines 387, as the file index of every new index. *)
Definition relocation (idx_0 n : nat) : list nat := [idx_0] ++ range 0 idx_0 ++ range (idx_0 + 1) n.

(** Lines 388-391: the rows of the columns 0..N-1, then the columns of the rows 0..N-1. *)
Definition permute_columns (perm : list nat) (N : nat) (D : nat -> nat -> V) : nat -> nat -> V :=
  fold_left (fun D i => fun r c => if Nat.eqb c i then D (nth r perm 0%nat) i else D r c) (range 0 N) D.
Definition permute_rows (perm : list nat) (N : nat) (D : nat -> nat -> V) : nat -> nat -> V :=
  fold_left (fun D i => fun r c => if Nat.eqb r i then D i (nth c perm 0%nat) else D r c) (range 0 N) D.

(** [[l[k]]+l[:k]+l[k+1:]], for a list that is not None and not empty; lines 392-397. *)
Definition move_front {A} (k : nat) (l : option (list A)) : outcome (option (list A)) :=
  match l with
  | Some (x :: t) =>
      let l := x :: t in do v <- item l k; Ok (Some ([v] ++ slice_to k l ++ slice_from (k + 1) l))
  | _ => Ok l
  end.

(** ProblemDefinition *)
Record problem := mkproblem {
  pb_size : Z; pb_points : option (list (option (V * V))); pb_dd : option (list (option (V * V)));
  pb_demands : option (list (option V)); pb_D : option (nat * (nat -> nat -> V));
  pb_C : option Z; pb_ewt : option text }.

(** Depot relocation, lines 382-397.  An index out of the matrix raises IndexError as soon as the
    loop runs. *)
Definition relocate (s : rstate) : outcome rstate :=
  match rs_depots s with
  | dep :: _ =>
      if 1 <? dep
      then
        let idx_0 := Z.to_nat (dep - 1) in
        match rs_D s with
        | None => Raise TypeError
        | Some (n, D) =>
            let perm := relocation idx_0 n in
            let N := Z.to_nat (rs_N s) in
            if (Nat.eqb N 0) || ((idx_0 <? n) && (N <=? n))%nat
            then
              do ds <- move_front idx_0 (rs_demands s);
              do ps <- move_front idx_0 (rs_points s);
              do dd <- move_front idx_0 (rs_dd s);
              Ok (mkrs (rs_section s) (rs_pos s) (rs_ij s) (rs_N s) (rs_C s) ps dd ds
                       (Some (n, permute_rows perm N (permute_columns perm N D)))
                       (rs_update s) (rs_ewt s) (rs_ewf s) (rs_depots s))
            else Raise IndexError
        end
      else Ok s
  | [] => Ok s
  end.

(** Lines 359-403: after the last line. *)
Definition finish (s : rstate) : outcome problem :=
  do ok <- complete s;
  if negb ok then Raise IOError
  else
    do s <- (if rs_update s
             then match calcD (rs_ewt s) (match rs_points s with Some p => p | None => [] end) with
                  | Some D => Ok (set_matrix s (rs_ij s) (Some D))
                  | None => Raise ValueError
                  end
             else Ok s);
    do s <- relocate s;
    if ewt_is s (str "GEO")
    then Ok (mkproblem (rs_N s) None (rs_points s) (rs_demands s) (rs_D s) (rs_C s) (rs_ewt s))
    else Ok (mkproblem (rs_N s) (rs_points s) (rs_dd s) (rs_demands s) (rs_D s) (rs_C s) (rs_ewt s)).

(** read_TSPLIB_CVRP, lines 159-403 *)
Definition read_TSPLIB_CVRP (file : text) : outcome problem :=
  do s <- read_loop rs_init (readlines file); finish s.

End Reader.

(** ** write_TSPLIB_file, lines 513-560 *)
Section Writer.
Context {V : Type}.
(** str(D[i,j]) without float_to_int_precision, str(int(D[i,j]*precision)) with it. *)
Variable print_val : V -> text.

Definition nl : text := [newline].

(** The rows of the weight section, lines 539-547. *)
Definition write_row (D : nat -> nat -> V) (i : nat) (rest : list nat) : text :=
  flat_map (fun j => print_val (D i j) ++ str " ") rest.
Fixpoint write_rows (D : nat -> nat -> V) (idxs : list nat) : text :=
  match idxs with
  | [] => []
  | i :: rest => write_row D i rest ++ (match rest with [] => [] | _ => nl end) ++ write_rows D rest
  end.

(** [if C:] for the integers of the "%d" fields *)
Definition is_nonzero (x : option Z) : option Z := match x with Some v => if v =? 0 then None else Some v | None => None end.

(** [d] is the list of demands, already truncated by int(); [n] is len(D); [vrp]: the file name
    ends with .vrp. *)
Definition write_TSPLIB_file (vrp : bool) (n : nat) (D : nat -> nat -> V) (d : list Z) (C L : option Z)
           (selected : list nat) : text :=
  let idxs := match selected with [] => range 0 n | _ => selected end in
  str "NAME: temporary" ++ nl ++
  (if vrp
   then str "TYPE: CVRP" ++ nl ++
        (match is_nonzero C with
         | Some c => str "CAPACITY: " ++ print_int c ++ nl
         | None => str "CAPACITY: " ++ print_int (Z.of_nat n) ++ nl
         end) ++
        (match is_nonzero L with Some l => str "DISTANCE: " ++ print_int l ++ nl | None => [] end)
   else str "TYPE: TSP" ++ nl) ++
  str "COMMENT: temporary CVRP or TSP problem" ++ nl ++
  str "DIMENSION: " ++ print_int (Z.of_nat (List.length idxs)) ++ nl ++
  str "EDGE_WEIGHT_TYPE: EXPLICIT" ++ nl ++
  str "EDGE_WEIGHT_FORMAT: UPPER_ROW" ++ nl ++
  str "EDGE_WEIGHT_SECTION" ++ nl ++
  write_rows D idxs ++
  (if vrp
   then str "DEMAND_SECTION" ++ nl ++ str "1 0" ++ nl ++
        (match d with
         | [] => flat_map (fun i => print_int (Z.of_nat i) ++ str " 1" ++ nl) (range 2 (n + 1))
         | _ => flat_map (fun i => print_int (Z.of_nat i) ++ str " " ++ print_int (nth (i - 1) d 0) ++ nl)
                         (range 2 (List.length d + 1))
         end) ++
        str "DEPOT_SECTION" ++ nl ++ str "1" ++ nl ++ str "-1" ++ nl
   else []) ++
  str "EOF".
End Writer.

(** ** read_TSBLIB_additional_constraints, lines 407-446 *)
Section Additional.
Context {V : Type}.
(** A number of the file: int(s), or float(s) if there is a dot. *)
Inductive anum := AInt (z : Z) | AFloat (v : V).
Variable parse_float : text -> option V.
(** [nst!=ST] *)
Variable anum_eqb : anum -> anum -> bool.

Definition dot : text := str ".".
(** [if "." in l: float(s) else: int(s)], s the last word of the line; "[-1]" of no words raises
    IndexError. *)
Definition last_number (l : text) : outcome anum :=
  match rev (split l) with
  | [] => Raise IndexError
  | w :: _ => if contains dot l then do v <- or_raise ValueError (parse_float w); Ok (AFloat v)
              else do z <- or_raise ValueError (parse_int w); Ok (AInt z)
  end.

(** (K, L, ST, reading_service_time_section) *)
Definition astate := (option Z * option anum * option anum * bool)%type.

(** One line, lines 420-444.  [nid!=1] compares a text with a number and is always true. *)
Definition add_line (s : astate) (l : text) : outcome astate :=
  let '(K, L, ST, reading) := s in
  do ST <- (if reading : bool
            then match split l with
                 | [_; nst] =>
                     do v <- (if contains dot nst
                              then do v <- or_raise ValueError (parse_float nst); Ok (AFloat v)
                              else do z <- or_raise ValueError (parse_int nst); Ok (AInt z));
                     match ST with
                     | Some st => if negb (anum_eqb v st) then Raise IOError else Ok (Some v)
                     | None => Ok (Some v)
                     end
                 | _ => Raise ValueError
                 end
            else Ok ST);
  do L <- (if contains (str "DISTANCE") l then do v <- last_number l; Ok (Some v) else Ok L);
  do ST <- (if contains (str "SERVICE_TIME") l then do v <- last_number l; Ok (Some v) else Ok ST);
  do K <- (if contains (str "VEHICLES") l
           then match rev (split l) with
                | [] => Raise IndexError
                | w :: _ => do z <- or_raise ValueError (parse_int w); Ok (Some z)
                end
           else Ok K);
  Ok (K, L, ST, reading || contains (str "SVC_TIME_SECTION") l).
Fixpoint add_loop (s : astate) (ls : list text) : outcome astate :=
  match ls with [] => Ok s | l :: t => do s1 <- add_line s l; add_loop s1 t end.
Definition read_additional_constraints (file : text) : outcome (option Z * option anum * option anum) :=
  do (K, L, ST, _) <- add_loop (None, None, None, false) (readlines file); Ok (K, L, ST).
End Additional.

(** ** Solution formats *)

(** as_VRPH_solution, lines 480-496; max of an empty list raises ValueError. *)
Fixpoint vrph_loop (visit_depot : bool) (sol : list nat) : list Z :=
  match sol with
  | [] => []
  | node :: t =>
      if Nat.eqb node 0 then vrph_loop true t
      else if visit_depot then - Z.of_nat node :: vrph_loop false t
      else Z.of_nat node :: vrph_loop visit_depot t
  end.
Definition as_VRPH_solution (sol : list nat) : outcome (list Z) :=
  match sol with
  | [] => Raise ValueError
  | _ => Ok ((Z.of_nat (fold_right Nat.max 0%nat sol) + 1) :: vrph_loop false sol ++ [0])
  end.

(** A cost is integral, or is known by the text "%.2f" prints for it. *)
Inductive ocost := CostInt (z : Z) | CostFrac (t : text).
Definition print_cost (c : ocost) : text := match c with CostInt z => print_int z | CostFrac t => t end.

(** as_OPT_solution, lines 498-511; routes are the runs of customers. *)
Fixpoint opt_routes (ri : Z) (routes : list (list nat)) : text :=
  match routes with
  | [] => []
  | r :: t => str "Route #" ++ print_int (ri + 1) ++ str ": "
              ++ join [ascii_of_nat 9] (map (fun n => print_int (Z.of_nat n)) r) ++ nl ++ opt_routes (ri + 1) t
  end.
Definition as_OPT_solution (cost : ocost) (sol : list nat) : text :=
  opt_routes 0 (map snd (filter (fun p => negb (fst p)) (groupby Bool.eqb (fun z => Nat.eqb z 0) sol)))
  ++ str "Cost : " ++ print_cost cost ++ nl.

Section ReadOpt.
Context {V : Type}.
Variable parse_float : text -> option V.

Definition parse_ints (ws : list text) : outcome (list Z) :=
  fold_right (fun w acc => do z <- or_raise ValueError (parse_int w); do l <- acc; Ok (z :: l)) (Ok []) ws.

(** One line, lines 121-146; [solution], [opt_f].  The statement [count_k+1] has no effect. *)
Definition opt_line (s : list Z * option (Z + V)) (l : text) : outcome (list Z * option (Z + V)) :=
  let '(solution, opt_f) := s in
  do solution <- (if contains (str "route") (lower l)
                  then match split_on ":"%char l with
                       | [_; routestring] =>
                           do p_idxs <- parse_ints (split routestring);
                           Ok (match p_idxs with
                               | [] => solution
                               | _ => (if negb (Z.eqb (last solution 0) 0) then solution ++ [0] else solution) ++ p_idxs
                               end)
                       | _ => Raise ValueError
                       end
                  else Ok solution);
  do opt_f <- (if contains (str "cost") (lower l)
               then match split l with
                    | [_; coststring] =>
                        match parse_int coststring with
                        | Some z => Ok (Some (inl z))
                        | None => do v <- or_raise ValueError (parse_float coststring); Ok (Some (inr v))
                        end
                    | _ => Raise ValueError
                    end
               else Ok opt_f);
  Ok (solution, opt_f).
Fixpoint opt_loop (s : list Z * option (Z + V)) (ls : list text) : outcome (list Z * option (Z + V)) :=
  match ls with [] => Ok s | l :: t => do s1 <- opt_line s l; opt_loop s1 t end.

(** read_OPT_CVRP, lines 107-153; [is_opt]: the extension is .opt; [name_k]: the number found in
    the file name.  count_k stays 0, so only a non-zero [name_k] survives. *)
Definition read_OPT_CVRP (is_opt : bool) (name_k : option Z) (file : text)
  : outcome (list Z * option (Z + V) * Z) :=
  match readlines file, is_opt with
  | _ :: _, false => Raise NotImplementedError
  | ls, _ =>
      do (solution, opt_f) <- opt_loop ([0], None) ls;
      Ok (if (1 <? List.length solution)%nat then solution ++ [0] else solution, opt_f,
          match name_k with Some k => if k =? 0 then 0 else k | None => 0 end)
  end.
End ReadOpt.
