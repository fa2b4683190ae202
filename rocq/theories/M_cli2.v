(** * Model of finding the problem files and the algorithms

    get_a_problem_file_list of verypy/shared_cli.py, natural_sort of verypy/util.py,
    get_algorithms of verypy/__init__.py and the --forbid option of verypy/VeRyPy.py. *)
From Verif Require Import Spec PyBase M_text.

(** ** natural_sort, util.py:125-133 *)

(** The pieces of re.split('([0-9]+)', key), lower cased or converted to numbers: texts without
    digits and numbers in turn, beginning and ending with a text. *)
Inductive piece := PText (s : text) | PNum (n : Z).
Definition is_digit (c : ascii) : bool := let n := nat_of_ascii c in ((48 <=? n) && (n <=? 57))%nat.
Definition digit (c : ascii) : Z := Z.of_nat (nat_of_ascii c) - 48.
(** [num]: the number read so far, [None] inside a text *)
Fixpoint natural_key_aux (num : option Z) (cur : text) (s : text) : list piece :=
  match s with
  | [] => match num with
          | None => [PText (lower cur)]
          | Some n => [PNum n; PText []]
          end
  | c :: t =>
      if is_digit c then
        match num with
        | None => PText (lower cur) :: natural_key_aux (Some (digit c)) [] t
        | Some n => natural_key_aux (Some (10 * n + digit c)) [] t
        end
      else
        match num with
        | None => natural_key_aux None (cur ++ [c]) t
        | Some n => PNum n :: natural_key_aux None [c] t
        end
  end.
Definition natural_key (s : text) : list piece := natural_key_aux None [] s.

(** Python's comparison of texts and of lists of pieces: [a < b] *)
Fixpoint text_ltb (a b : text) : bool :=
  match a, b with
  | [], [] => false
  | [], _ :: _ => true
  | _ :: _, [] => false
  | x :: a', y :: b' => if Ascii.eqb x y then text_ltb a' b' else (nat_of_ascii x <? nat_of_ascii y)%nat
  end.
Definition piece_eqb (x y : piece) : bool :=
  match x, y with PText a, PText b => text_eqb a b | PNum a, PNum b => a =? b | _, _ => false end.
(** A text and a number are never compared: both keys have texts at the even places. *)
Definition piece_ltb (x y : piece) : bool :=
  match x, y with PText a, PText b => text_ltb a b | PNum a, PNum b => a <? b | PText _, PNum _ => true | PNum _, PText _ => false end.
Fixpoint key_ltb (a b : list piece) : bool :=
  match a, b with
  | [], [] => false
  | [], _ :: _ => true
  | _ :: _, [] => false
  | x :: a', y :: b' => if piece_eqb x y then key_ltb a' b' else piece_ltb x y
  end.

(** sorted(l, key): stable *)
Fixpoint sort_in (x : text) (l : list text) : list text :=
  match l with
  | [] => [x]
  | y :: t => if key_ltb (natural_key y) (natural_key x) then y :: sort_in x t else x :: l
  end.
Definition natural_sort (l : list text) : list text := fold_right sort_in [] l.

(** ** get_a_problem_file_list, shared_cli.py:157-185 *)

(** A directory tree.  Links are not modelled.  The order of the entries is the one in which the
    system lists them. *)
Inductive fs := File (content : text) | Dir (entries : list (text * fs)).

(** path.join for a relative name *)
Definition join_path (p name : text) : text := p ++ str "/" ++ name.
(** [s[-len(e):].lower() == e] *)
Definition has_ext (e s : text) : bool := text_eqb (lower (skipn (length s - length e) s)) e.
(** the glob patterns *.vrp etc.: case sensitive, names that begin with a dot do not match; no
    special characters in the path *)
Definition glob_ext (e name : text) : bool :=
  match name with
  | c :: _ => negb (Ascii.eqb c "."%char) && (length e <=? length name)%nat && text_eqb (skipn (length name - length e) name) e
  | [] => false
  end.

(** All [path.join(root,d) for d in dirs] for root, dirs, _ in walk(p), top down *)
Fixpoint walk_dirs (p : text) (t : fs) : list text :=
  match t with
  | File _ => []
  | Dir es =>
      flat_map (fun e => match snd e with Dir _ => [join_path p (fst e)] | File _ => [] end) es ++
      flat_map (fun e => match snd e with Dir _ => walk_dirs (join_path p (fst e)) (snd e) | File _ => [] end) es
  end.

Section Files.
(** What is found at a path *)
Variable look : text -> option fs.

(** Lines 159-162: the list grows while it is iterated over.  [None]: out of fuel. *)
Fixpoint grow (fuel : nat) (todo : list text) : option (list text) :=
  match todo with
  | [] => Some []
  | p :: rest =>
      match fuel with
      | O => None
      | S fuel' =>
          option_map (cons p) (grow fuel' (rest ++ match look p with Some t => walk_dirs p t | None => [] end))
      end
  end.

Definition ext_vrp := str ".vrp".
Definition ext_tsp := str ".tsp".
Definition ext_pickle := str ".pickle".
Definition ext_txt := str ".txt".

Definition isfile (p : text) : bool := match look p with Some (File _) => true | _ => false end.

(** glob(path.join(p, "*"+e)), also directories match *)
Definition glob_in (p e : text) (es : list (text * fs)) : list text :=
  map (fun x => join_path p (fst x)) (filter (fun x => glob_ext e (fst x)) es).

(** Lines 164-184 for one path *)
Definition list_one (p : text) : list text :=
  match look p with
  | Some (Dir es) => natural_sort (glob_in p ext_vrp es) ++ natural_sort (glob_in p ext_tsp es) ++ natural_sort (glob_in p ext_pickle es)
  | Some (File content) =>
      if has_ext ext_txt p then filter isfile (map strip (readlines content))
      else if has_ext ext_vrp p || has_ext ext_tsp p || has_ext ext_pickle p then [p]
      else []
  | None => []
  end.

Definition get_a_problem_file_list (fuel : nat) (problem_paths : list text) (recursive : bool) : option (list text) :=
  option_map (flat_map list_one) (if recursive then grow fuel problem_paths else Some problem_paths).
End Files.

(** ** get_algorithms, __init__.py:5-187 *)

(** algo_name_aliases, lines 5-68 *)
Open Scope string_scope.
Definition alias_table : list (string * string) := [
  ("ps", "ps"); ("cw64-ps", "ps"); ("cw", "ps"); ("parallelsavings", "ps"); ("clarkewright", "ps"); ("gpl", "gpl");
  ("ga67-ps", "gpl"); ("ga67-ps|pi", "gpl"); ("ga67-ps|lambda", "gpl"); ("gaskellpi", "gpl");
  ("gaskelllambda", "gpl"); ("ss", "ss"); ("we64-ss", "ss"); ("sequentialsavings", "ss"); ("gps", "gps");
  ("pa88-ps", "gps"); ("generalizedsavings", "gps"); ("generalizedparallelsavings", "gps"); ("paessens", "gps");
  ("ims", "ims"); ("hp76-ps", "ims"); ("hp76-ps|ims", "ims"); ("suppression", "ims");
  ("iterativemergesuppression", "ims"); ("mergesuppressionsavings", "ims"); ("ps2o", "ps2o"); ("rt79-ps", "ps2o");
  ("cawlip", "ps2o"); ("savingswith2opt", "ps2o"); ("si", "si"); ("ci", "si"); ("cheapestinsertion", "si");
  ("sequentialinsertion", "si"); ("mj", "mj"); ("mj76-si", "si"); ("molejameson", "mj");
  ("molejamesoninsertion", "mj"); ("pi", "pi"); ("parallelinsertion", "pi"); ("parallelcheapestinsertion", "pi");
  ("mbsa", "mbsa"); ("dv89-mbsa", "mbsa"); ("matching", "mbsa"); ("maximummatching", "mbsa"); ("mm", "mbsa");
  ("desrochersverhoog", "mbsa"); ("cmt", "cmt"); ("cmt79-2p", "cmt"); ("tp", "cmt"); ("twophase", "cmt");
  ("cmt2p", "cmt"); ("cmt2phase", "cmt"); ("cmttwophase", "cmt"); ("sn", "sn"); ("nn", "sn"); ("snn", "sn");
  ("pn", "pn"); ("pnn", "pn"); ("ty", "ty"); ("ty68-snn", "ty"); ("tyagi", "ty"); ("swp", "swp"); ("sweep", "swp");
  ("wh", "wh"); ("wh72-swls", "wh"); ("whs", "wh"); ("whswp", "wh"); ("wrenholliday", "wh");
  ("wrenhollidaysweep", "wh"); ("gm", "gm"); ("gm74-swri", "gm"); ("gms", "gm"); ("gmswp", "gm");
  ("gilletmiller", "gm"); ("gilletmillersweep", "gm"); ("rfcs", "rfcs"); ("be83-rfcs", "rfcs");
  ("routefirstclustersecond", "rfcs"); ("beasley", "rfcs"); ("newtonthomas", "rfcs"); ("gap", "gap");
  ("fj81-gap", "gap"); ("fisherjaikumar", "gap"); ("ptl", "ptl"); ("fr76-ptl", "ptl"); ("petal", "ptl");
  ("fosterryan", "ptl"); ("lr3o", "lr3o"); ("sg82-lr3opt", "lr3o"); ("lr3opt", "lr3o"); ("all", "all");
  ("classical", "classical"); ("classic", "classical")].

(** The algorithms in the order of lines 88-184: abbreviation, in "classical", needs gurobipy *)
Definition algo_table : list (string * bool * bool) :=
  [("ps", true, false); ("ps2o", false, false); ("gpl", true, false); ("ss", true, false); ("gps", true, false);
   ("ims", true, false); ("si", false, false); ("mj", true, false); ("pi", false, false); ("mbsa", true, true);
   ("cmt", true, false); ("sn", false, false); ("pn", false, false); ("ty", true, false); ("swp", false, false);
   ("wh", true, false); ("gm", true, false); ("rfcs", true, false); ("gap", true, true); ("ptl", true, true);
   ("lr3o", true, false)].
Close Scope string_scope.

Definition alias (name : text) : option text :=
  option_map (fun q => str (snd q)) (find (fun q => text_eqb name (str (fst q))) alias_table).

(** One name, lines 84-186 *)
Definition algos_named (has_gurobi : bool) (name : text) : list text :=
  match alias (lower name) with
  | None => []
  | Some s =>
      flat_map (fun q => let '(abbr, classical, gurobi) := q in
        if text_eqb s (str abbr) || text_eqb s (str "all") || (classical && text_eqb s (str "classical"))
        then (if gurobi && negb has_gurobi then [] else [str abbr]) else []) algo_table
  end.
Definition get_algorithms (has_gurobi : bool) (names : list text) : list text := flat_map (algos_named has_gurobi) names.

(** The --forbid option, VeRyPy.py:107-111: [None] is the KeyError of an unknown name. *)
Fixpoint forbidden_abbrs (names : list text) : option (list text) :=
  match names with
  | [] => Some []
  | n :: rest =>
      match alias n, forbidden_abbrs rest with
      | Some s, Some l => Some (s :: l)
      | _, _ => None
      end
  end.
Definition algos_to_run (has_gurobi : bool) (active forbid : list text) : option (list text) :=
  let algos := get_algorithms has_gurobi active in
  match forbid with
  | [] => Some algos
  | _ => option_map (fun fb => filter (fun a => negb (existsb (text_eqb a) fb)) algos) (forbidden_abbrs forbid)
  end.
