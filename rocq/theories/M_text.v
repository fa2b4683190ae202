(** * Python text operations used by verypy/cvrp_io.py

    A text is the list of its characters.  Only ASCII whitespace is modelled, and a file opened
    in text mode is assumed to have \n line ends (universal newlines would translate the others). *)
From Coq Require Export Ascii String.
From Coq Require Import DecimalString.
From Verif Require Import Spec.
From Coq Require Export List.
Export ListNotations.

Notation text := (list ascii).
Notation str s := (list_ascii_of_string s).

(** Outcome of a statement: a value or an exception. *)
Inductive exn := IOError | ValueError | IndexError | TypeError | NotImplementedError.
Inductive outcome (A : Type) := Ok (a : A) | Raise (e : exn).
Arguments Ok {A} a.
Arguments Raise {A} e.
Definition bind {A B} (x : outcome A) (f : A -> outcome B) : outcome B :=
  match x with Ok a => f a | Raise e => Raise e end.
Notation "'do' x <- m ; k" := (bind m (fun x => k)) (at level 200, x pattern, right associativity).
Definition or_raise {A} (e : exn) (x : option A) : outcome A :=
  match x with Some a => Ok a | None => Raise e end.

Definition newline : ascii := ascii_of_nat 10.

(** str.isspace for ASCII: tab, newline, vertical tab, form feed, return, the separators 28-31
    and the blank. *)
Definition is_space (c : ascii) : bool :=
  let n := nat_of_ascii c in
  ((9 <=? n) && (n <=? 13) || (28 <=? n) && (n <=? 32))%nat.

(** str.strip() *)
Fixpoint lstrip (s : text) : text :=
  match s with
  | c :: t => if is_space c then lstrip t else s
  | [] => []
  end.
Definition strip (s : text) : text := rev (lstrip (rev (lstrip s))).

(** str.split() *)
Fixpoint split_aux (cur s : text) : list text :=
  match s with
  | [] => match cur with [] => [] | _ => [cur] end
  | c :: t => if is_space c
              then match cur with [] => split_aux [] t | _ => cur :: split_aux [] t end
              else split_aux (cur ++ [c]) t
  end.
Definition split (s : text) : list text := split_aux [] s.

(** str.split(x) for a single character x *)
Fixpoint split_on_aux (x : ascii) (cur s : text) : list text :=
  match s with
  | [] => [cur]
  | c :: t => if Ascii.eqb c x then cur :: split_on_aux x [] t else split_on_aux x (cur ++ [c]) t
  end.
Definition split_on (x : ascii) (s : text) : list text := split_on_aux x [] s.

(** [field, value = line.split(x,1)]; [None] if x does not occur. *)
Fixpoint split_once (x : ascii) (s : text) : option (text * text) :=
  match s with
  | [] => None
  | c :: t => if Ascii.eqb c x then Some ([], t)
              else match split_once x t with Some (a, b) => Some (c :: a, b) | None => None end
  end.

(** [p in s] for texts *)
Fixpoint is_prefix (p s : text) : bool :=
  match p, s with
  | [], _ => true
  | a :: p', c :: s' => Ascii.eqb a c && is_prefix p' s'
  | _ :: _, [] => false
  end.
Fixpoint contains (p s : text) : bool :=
  is_prefix p s || match s with [] => false | _ :: t => contains p t end.

Definition text_eqb (a b : text) : bool := if list_eq_dec ascii_dec a b then true else false.

(** str.lower() on ASCII *)
Definition lower_char (c : ascii) : ascii :=
  let n := nat_of_ascii c in if ((65 <=? n) && (n <=? 90))%nat then ascii_of_nat (n + 32) else c.
Definition lower (s : text) : text := map lower_char s.

(** file.readlines(): every line keeps its newline. *)
Fixpoint readlines_aux (cur s : text) : list text :=
  match s with
  | [] => match cur with [] => [] | _ => [cur] end
  | c :: t => if Ascii.eqb c newline then (cur ++ [c]) :: readlines_aux [] t
              else readlines_aux (cur ++ [c]) t
  end.
Definition readlines (s : text) : list text := readlines_aux [] s.

(** "%d" % z, and str of an int *)
Definition print_int (z : Z) : text := str (NilZero.string_of_int (Z.to_int z)).
(** int(s): surrounding blanks and a sign are allowed (underscores are not modelled); [None] is
    ValueError. *)
Definition parse_int (s : text) : option Z :=
  let s := strip s in
  let s := match s with c :: t => if Ascii.eqb c "+"%char
                                  then match t with
                                       | c' :: _ => if Ascii.eqb c' "-"%char then [] else t
                                       | [] => [] end
                                  else s | [] => [] end in
  match NilZero.int_of_string (string_of_list_ascii s) with
  | Some i => Some (Z.of_int i)
  | None => None
  end.

(** sep.join(l) *)
Fixpoint join (sep : text) (l : list text) : text :=
  match l with
  | [] => []
  | [x] => x
  | x :: t => x ++ sep ++ join sep t
  end.
