(** * Model of verypy/util.py *)
From Verif Require Import Spec PyBase.

(** util.py:28-30 *)
Fixpoint is_sorted (l : list nat) : bool :=
  match l with
  | a :: ((b :: _) as t) => Nat.leb a b && is_sorted t
  | _ => true
  end.

(** util.py:44-54: sum of D[sol[i-1],sol[i]] for i in range(1,len(sol)). *)
Definition objf (sol : list nat) (D : matrix) : Z :=
  sumZ (map (fun i => D (at_ sol (i - 1)) (at_ sol i)) (range 1 (length sol))).

(** util.py:56-60, [d] given. *)
Definition totald (sol : list nat) (d : demands) : Z := sumZ (map d sol).

(** util.py:67-79.  [best_f], [sol_f] are option Z ([None] as in Python). *)
Definition is_better_sol (best_f : option Z) (best_K : option nat)
           (sol_f : option Z) (sol_K : option nat) (minimize_K : bool) : bool :=
  match sol_f, sol_K with
  | Some sf, Some sK =>
      match best_f, best_K with
      | Some bf, Some bK =>
          if minimize_K then Nat.ltb sK bK || (Nat.eqb sK bK && (sf <? bf))
          else sf <? bf
      | _, _ => true
      end
  | _, _ => false
  end.

(** The best-of loop used by all multi-start heuristics, e.g. gaskell_savings.py:103-109,
    paessens_savings.py:121-127, suppression_savings.py:141-147, sweep.py:516-522,
    shared_cli.py:300-307.  A candidate is a solution with its cost and number of routes;
    the incumbent starts as None, None, None. *)
Definition best_step {S} (minimize_K : bool) (best : option (S * Z * nat)) (cand : S * Z * nat)
  : option (S * Z * nat) :=
  let best_f := match best with Some (_, f, _) => Some f | None => None end in
  let best_K := match best with Some (_, _, k) => Some k | None => None end in
  let '(_, sol_f, sol_K) := cand in
  if is_better_sol best_f best_K (Some sol_f) (Some sol_K) minimize_K then Some cand else best.
Definition best_of {S} (minimize_K : bool) (cands : list (S * Z * nat)) : option (S * Z * nat) :=
  fold_left (best_step minimize_K) cands None.

(** util.py:81-84: [n[0] for n in groupby(sol)] (the keys of the groups). *)
Definition without_empty_routes (sol : list nat) : list nat :=
  map fst (groupby Nat.eqb (fun n => n) sol).

(** util.py:86-91 *)
Definition sol2routes (sol : list nat) : list (list nat) :=
  if Nat.leb (length sol) 2 then []
  else map (fun g => [0%nat] ++ snd g ++ [0%nat])
           (filter (fun g => negb (fst g)) (groupby Bool.eqb (fun z => Nat.eqb z 0) sol)).

(** util.py:93-104.  The Python set is modelled by the list of added edges. *)
Definition sol2edgeset (sol : list nat) (symm : bool) : list (nat * nat) :=
  map (fun i => let j := (i + 1)%nat in
                if symm || Nat.ltb (at_ sol i) (at_ sol j)
                then (at_ sol i, at_ sol j) else (at_ sol j, at_ sol i))
      (range 0 (length sol - 1)).

(** util.py:106-123.  A route is [None] or a list; [None] result for an empty list. *)
Definition routes2sol_step (sol : list nat) (r : option (list nat)) : list nat :=
  match r with
  | None | Some [] => sol
  | Some (x :: t) =>
      let sol' := if Nat.eqb x 0 then sol ++ t else sol ++ (x :: t) in
      if Nat.eqb (last sol' 0%nat) 0 then sol' else sol' ++ [0%nat]
  end.
Definition routes2sol (routes : list (option (list nat))) : option (list nat) :=
  match routes with
  | [] => None
  | _ => Some (fold_left routes2sol_step routes [0%nat])
  end.

(** routes2sol on a generator (always truthy), util.py:106-123 as called with a
    generator expression in sequential_savings.py:206 and cheapest_insertion.py:407. *)
Definition routes2sol_gen (routes : list (option (list nat))) : list nat :=
  fold_left routes2sol_step routes [0%nat].

(** ** OrderedDictSet, util.py:135-183 *)
Record ods := mkods { ods_keys : list nat;              (* self.ods, insertion ordered *)
                      ods_cache : option (list nat) }.   (* self.keylist *)

Definition dict_add (k : nat) (l : list nat) : list nat :=
  if existsb (Nat.eqb k) l then l else l ++ [k].
Definition dict_del (k : nat) (l : list nat) : list nat := filter (fun x => negb (Nat.eqb k x)) l.

(** __init__ 153-164: dict.fromkeys keeps first occurrences in order. *)
Definition ods_init (c : list nat) : ods := mkods (fold_left (fun l k => dict_add k l) c []) None.

(** remove 165-167: KeyError (None) if absent. *)
Definition ods_remove (s : ods) (e : nat) : option ods :=
  if existsb (Nat.eqb e) (ods_keys s) then Some (mkods (dict_del e (ods_keys s)) None) else None.

(** add 168-171: [if self.keylist:] is false for [None] and for the empty list. *)
Definition ods_add (s : ods) (e : nat) : ods :=
  mkods (dict_add e (ods_keys s))
        (match ods_cache s with
         | None => None
         | Some [] => Some []
         | Some l => Some (l ++ [e])
         end).

(** difference_update 172-175 *)
Definition ods_difference_update (s : ods) (c : list nat) : ods :=
  mkods (fold_left (fun l k => dict_del k l) c (ods_keys s)) None.

(** __getitem__ 176-179 (index >= 0; IndexError is None). *)
Definition ods_getitem (s : ods) (i : nat) : ods * option nat :=
  let l := match ods_cache s with None => ods_keys s | Some l => l end in
  (mkods (ods_keys s) (Some l), nth_error l i).

(** __iter__, __len__ 180-183 *)
Definition ods_iter (s : ods) : list nat := ods_keys s.
Definition ods_len (s : ods) : nat := length (ods_keys s).

(** ** Histories of calls on an OrderedDictSet *)
Inductive ods_op := OAdd (e : nat) | ORemove (e : nat) | ODiff (c : list nat) | OGet (i : nat).

(** One call; a raised KeyError leaves the object unchanged, an IndexError of
    __getitem__ leaves the refreshed cache. *)
Definition ods_step (s : ods) (o : ods_op) : ods :=
  match o with
  | OAdd e => ods_add s e
  | ORemove e => match ods_remove s e with Some s' => s' | None => s end
  | ODiff c => ods_difference_update s c
  | OGet i => fst (ods_getitem s i)
  end.
Definition ods_run (c : list nat) (ops : list ods_op) : ods := fold_left ods_step ops (ods_init c).

