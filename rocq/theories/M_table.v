(** * Model of the table of results at the end of VeRyPy.py and of its option -D

    verypy/VeRyPy.py:157-162 and 269-309.  The layout of the table, the columns of the problem's data other than K* and
    the label of the post-optimization are left out. *)
From Verif Require Import Spec PyBase M_text M_cli M_cli2.

(** A Python dictionary with texts as keys, in the order of insertion *)
Definition dict (A : Type) : Type := list (text * A).
Fixpoint set_item {A} (k : text) (v : A) (m : dict A) : dict A :=
  match m with
  | [] => [(k, v)]
  | (k', v') :: t => if text_eqb k k' then (k', v) :: t else (k', v') :: set_item k v t
  end.
Fixpoint get_item {A} (k : text) (m : dict A) : option A :=
  match m with
  | [] => None
  | (k', v) :: t => if text_eqb k k' then Some v else get_item k t
  end.
(** sorted(m.items()): the keys differ, so that the values are not compared *)
Fixpoint insert_item {A} (x : text * A) (l : dict A) : dict A :=
  match l with
  | [] => [x]
  | y :: t => if text_ltb (fst y) (fst x) then y :: insert_item x t else x :: l
  end.
Definition sorted_items {A} (m : dict A) : dict A := fold_right insert_item [] m.

Section Table.
(** The base names of the files and the names of the algorithms *)
Variables bn algo_name : nat -> text.

(** results, lines 133 and 270-271: [results[bn][algo_name] = sol_q], [None] is infinity *)
Definition the_file (r : report) : text := match r with Solved f _ _ _ _ _ _ | Unsolved f _ _ => bn f end.
Definition the_algo (r : report) : text := match r with Solved _ a _ _ _ _ _ | Unsolved _ a _ => algo_name a end.
Definition the_quality (r : report) : option Z := match r with Solved _ _ _ _ q _ _ => Some q | Unsolved _ _ _ => None end.
Definition add_result (results : dict (dict (option Z))) (r : report) : dict (dict (option Z)) :=
  let row := match get_item (the_file r) results with Some m => m | None => [] end in
  set_item (the_file r) (set_item (the_algo r) (the_quality r) row) results.
(** instance_data, lines 134 and 249-251: only the number of routes is kept here *)
Definition add_instance (data : dict nat) (r : report) : dict nat :=
  match r with
  | Unsolved _ _ _ => data
  | Solved f _ _ _ _ K _ =>
      match get_item (bn f) data with
      | None => set_item (bn f) K data
      | Some k => if (K <? k)%nat then set_item (bn f) K data else data
      end
  end.

(** What is printed at the end: nothing, or the titles of the columns (those of the first row)
    and the rows.  [failed]: a KeyError of instance_data[problem] ends the program after the
    rows printed so far; the name of that problem has been printed, too. *)
Record table := mkt { t_titles : list text; t_rows : list (text * nat * list (option Z)); t_failed : option text }.
Fixpoint print_rows (data : dict nat) (items : dict (dict (option Z))) : list (text * nat * list (option Z)) * option text :=
  match items with
  | [] => ([], None)
  | (f, row) :: rest =>
      match get_item f data with
      | None => ([], Some f)
      | Some K => let '(rows, e) := print_rows data rest in ((f, K, map snd (sorted_items row)) :: rows, e)
      end
  end.
(** Lines 285-305; [n_algos] is len(algos). *)
Definition collected_results (minimal : bool) (n_algos : nat) (reports : list report) : option table :=
  let results := fold_left add_result reports [] in
  let data := fold_left add_instance reports [] in
  if negb minimal && ((1 <? length results)%nat || (1 <? n_algos)%nat) then
    let items := sorted_items results in
    let '(rows, e) := print_rows data items in
    Some (mkt (match items with [] => [] | (_, row) :: _ => map fst (sorted_items row) end) rows e)
  else None.
End Table.

(** The whole run: the reports, how the loop ended and, unless it crashed, the table. *)
Definition verypy bn algo_name eps o run ps algos fuel : list report * main_end * option table :=
  let '(reports, e) := main eps o run ps algos fuel in
  (reports, e, match e with
               | AllDone | Stopped => collected_results bn algo_name (o_minimal o) (length algos) reports
               | Crashed | OutOfFuel => None
               end).

(** ** The option -D, lines 157-162

    Distances are multiples of 1/q.  np.int(D) is int(D), or an AttributeError in newer versions of numpy; the
    conversion of an array of several numbers to int is a TypeError ([None]).  For a matrix with a single entry the
    result is a number, which the algorithms cannot index; this is [None], too.  The changed edge weight type is not modelled. *)
Definition force_weights (q : Z) (fmt : option text) (D : matrix) : option matrix :=
  let D1 := match fmt with
            | Some f => if text_eqb f (str "TRUNCATE") then fun i j => q * (D i j / q) else D
            | None => D
            end in
  match fmt with
  | Some f => if text_eqb f (str "ROUND") then None else Some D1
  | None => Some D1
  end.
