(** * Python primitives used by the model *)
From Verif Require Import Spec.

(** Truthiness of a numeric limit: [if C:] ([None] and [0] are false). *)
Definition truthy (x : option Z) : option Z :=
  match x with
  | Some v => if v =? 0 then None else Some v
  | None => None
  end.

(** [if C and x-eps>C] : the limit is set and exceeded. *)
Definition exceeds (x : option Z) (eps v : Z) : bool :=
  match truthy x with
  | Some c => c <? v - eps
  | None => false
  end.

(** [l[i]] for an index the code guarantees to be in range. *)
Definition at_ (l : list nat) (i : nat) : nat := nth i l 0%nat.

(** Slices with non-negative bounds and step 1: [l[a:b]], [l[:b]], [l[a:]]. *)
Definition slice {A} (a b : nat) (l : list A) : list A := firstn (b - a) (skipn a l).
Definition slice_to {A} (b : nat) (l : list A) : list A := firstn b l.
Definition slice_from {A} (a : nat) (l : list A) : list A := skipn a l.

(** Slices with step -1 and in-range bounds:
    [l[a:b:-1]] = l[a], l[a-1], ..., l[b+1];  [l[a::-1]] = l[a],...,l[0];
    [l[:b:-1]] = l[len-1],...,l[b+1]. *)
Definition rslice {A} (a b : nat) (l : list A) : list A := rev (slice (b + 1) (a + 1) l).
Definition rslice_all {A} (a : nat) (l : list A) : list A := rev (slice_to (a + 1) l).
Definition rslice_end {A} (b : nat) (l : list A) : list A := rev (slice_from (b + 1) l).

(** [range(a,b)] *)
Definition range (a b : nat) : list nat := seq a (b - a).

(** A [for] loop over a list whose body may [break]: the body returns the new
    state and whether the loop is left; the result tells whether it was left by
    [break]. *)
Fixpoint for_break {A S} (l : list A) (body : A -> S -> S * bool) (s : S) : S * bool :=
  match l with
  | [] => (s, false)
  | x :: t =>
      let (s', brk) := body x s in
      if brk then (s', true) else for_break t body s'
  end.

(** itertools.groupby: maximal runs of elements with equal keys. *)
Fixpoint groupby {A K} (keq : K -> K -> bool) (key : A -> K) (l : list A) : list (K * list A) :=
  match l with
  | [] => []
  | x :: t =>
      match groupby keq key t with
      | (k, g) :: gs => if keq (key x) k then (k, x :: g) :: gs else (key x, [x]) :: (k, g) :: gs
      | [] => [(key x, [x])]
      end
  end.

(** Lexicographic comparison of lists of nodes (Python's [<=] on lists). *)
Fixpoint lex_leb (a b : list nat) : bool :=
  match a, b with
  | [], _ => true
  | _ :: _, [] => false
  | x :: a', y :: b' => if Nat.ltb x y then true else if Nat.ltb y x then false else lex_leb a' b'
  end.

(** [list.sort()] on a list of lists.  The order is total and antisymmetric, so
    every correct sorting algorithm returns the same list (see P_base); here an
    insertion sort. *)
Fixpoint lex_insert (x : list nat) (l : list (list nat)) : list (list nat) :=
  match l with
  | [] => [x]
  | y :: t => if lex_leb x y then x :: y :: t else y :: lex_insert x t
  end.
Fixpoint lex_sort (l : list (list nat)) : list (list nat) :=
  match l with [] => [] | x :: t => lex_insert x (lex_sort t) end.

(** [l[n] = x] for an index in range *)
Fixpoint set_nth {A} (n : nat) (x : A) (l : list A) : list A :=
  match l, n with
  | [], _ => []
  | _ :: t, O => x :: t
  | y :: t, S n' => y :: set_nth n' x t
  end.

(** [l.remove(x)]: the first occurrence *)
Fixpoint remove_first (x : nat) (l : list nat) : list nat :=
  match l with
  | [] => []
  | y :: t => if Nat.eqb x y then t else y :: remove_first x t
  end.
