(** * Specification for finding the problem files and the algorithms *)
From Verif Require Import Spec M_text M_cli2.
From Coq Require Import Sorting.Sorted.

(** Joining a path and a name of its directory leads to the entry. *)
Definition tree_view (look : text -> option fs) : Prop :=
  forall p es n c, look p = Some (Dir es) -> In (n, c) es -> look (join_path p n) = Some c.

(** [q] is the directory [p] or lies in it, at any depth. *)
Inductive subdir (look : text -> option fs) (p : text) : text -> Prop :=
| sub_here : forall es, look p = Some (Dir es) -> subdir look p p
| sub_down : forall q n es c, subdir look p q -> look q = Some (Dir es) -> In (n, Dir c) es -> subdir look p (join_path q n).

(** The directory [q] has an entry with the path [f] and the name of a problem file. *)
Definition holds (look : text -> option fs) (q f : text) : Prop :=
  exists es n c e, look q = Some (Dir es) /\ In (n, c) es /\ f = join_path q n /\
    In e [str ".vrp"; str ".tsp"; str ".pickle"] /\ (exists a b, n = a :: b ++ e /\ a <> "."%char).

(** The path [p] itself names the file [f]: as a problem file or as a line of a list of files. *)
Definition names_file (look : text -> option fs) (p f : text) : Prop :=
  exists content, look p = Some (File content) /\
    if has_ext (str ".txt") p then In f (map strip (readlines content)) /\ exists c, look f = Some (File c)
    else (has_ext (str ".vrp") p = true \/ has_ext (str ".tsp") p = true \/ has_ext (str ".pickle") p = true) /\ f = p.

(** Natural order: [a] does not come after [b]. *)
Definition natural_le (a b : text) : Prop := key_ltb (natural_key b) (natural_key a) = false.

(** The algorithms with the names the user can give for each (lower case), whether it belongs to the
    classical ones and whether it needs gurobipy. *)
Open Scope string_scope.
Definition catalogue : list (string * list string * bool * bool) := [
  ("ps", ["ps"; "cw64-ps"; "cw"; "parallelsavings"; "clarkewright"], true, false);
  ("ps2o", ["ps2o"; "rt79-ps"; "cawlip"; "savingswith2opt"], false, false);
  ("gpl", ["gpl"; "ga67-ps"; "ga67-ps|pi"; "ga67-ps|lambda"; "gaskellpi"; "gaskelllambda"], true, false);
  ("ss", ["ss"; "we64-ss"; "sequentialsavings"], true, false);
  ("gps", ["gps"; "pa88-ps"; "generalizedsavings"; "generalizedparallelsavings"; "paessens"], true, false);
  ("ims", ["ims"; "hp76-ps"; "hp76-ps|ims"; "suppression"; "iterativemergesuppression"; "mergesuppressionsavings"], true, false);
  ("si", ["si"; "ci"; "cheapestinsertion"; "sequentialinsertion"], false, false);
  ("mj", ["mj"; "mj76-si"; "molejameson"; "molejamesoninsertion"], true, false);
  ("pi", ["pi"; "parallelinsertion"; "parallelcheapestinsertion"], false, false);
  ("mbsa", ["mbsa"; "dv89-mbsa"; "matching"; "maximummatching"; "mm"; "desrochersverhoog"], true, true);
  ("cmt", ["cmt"; "cmt79-2p"; "tp"; "twophase"; "cmt2p"; "cmt2phase"; "cmttwophase"], true, false);
  ("sn", ["sn"; "nn"; "snn"], false, false);
  ("pn", ["pn"; "pnn"], false, false);
  ("ty", ["ty"; "ty68-snn"; "tyagi"], true, false);
  ("swp", ["swp"; "sweep"], false, false);
  ("wh", ["wh"; "wh72-swls"; "whs"; "whswp"; "wrenholliday"; "wrenhollidaysweep"], true, false);
  ("gm", ["gm"; "gm74-swri"; "gms"; "gmswp"; "gilletmiller"; "gilletmillersweep"], true, false);
  ("rfcs", ["rfcs"; "be83-rfcs"; "routefirstclustersecond"; "beasley"; "newtonthomas"], true, false);
  ("gap", ["gap"; "fj81-gap"; "fisherjaikumar"], true, true);
  ("ptl", ["ptl"; "fr76-ptl"; "petal"; "fosterryan"], true, true);
  ("lr3o", ["lr3o"; "sg82-lr3opt"; "lr3opt"], true, false)].
Close Scope string_scope.

(** The names as texts. *)
Definition texts (names : list string) : list text := map (fun s => str s) names.

(** [n] is one of the names of the algorithm [a]. *)
Definition called (a n : text) : Prop :=
  exists abbr names classical gurobi, In (abbr, names, classical, gurobi) catalogue /\ a = str abbr /\ In n (texts names).

(** The name [n] selects the algorithm [a]: by one of its names, or as one of the group "all" or of
    the group "classical", in any case; what needs gurobipy is left out without it. *)
Definition selects (has_gurobi : bool) (n a : text) : Prop :=
  exists abbr names classical gurobi, In (abbr, names, classical, gurobi) catalogue /\ a = str abbr /\
    (gurobi = true -> has_gurobi = true) /\
    (In (lower n) (texts names) \/ lower n = str "all" \/
     classical = true /\ (lower n = str "classical" \/ lower n = str "classic")).

(** [n] is a name of an algorithm or of a group of them. *)
Definition a_name (n : text) : Prop := n = str "all" \/ n = str "classical" \/ n = str "classic" \/ exists a, called a n.
