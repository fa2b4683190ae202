(** * Model of verypy/local_search/solution_operators.py: 3-opt* on whole solutions

    The solution is given as a list (not as precomputed auxiliary data), the demands are given. *)
From Verif Require Import Spec PyBase M_util M_psavings.

(** _build_cumulative_lists, lines 45-83.  [f] is D or the demand of the node reached; the sums
    restart at every depot.  direction -1 scans the solution from its end. *)
Fixpoint cum_routes (f : nat -> nat -> Z) (prev : nat) (acc : Z) (l : list nat) : list Z :=
  match l with
  | [] => []
  | n :: t => let acc' := if Nat.eqb n 0 then 0 else acc + f prev n in acc' :: cum_routes f n acc' t
  end.
Definition sol_fwd (f : nat -> nat -> Z) (sol : list nat) : list Z :=
  match sol with [] => [] | _ :: t => 0 :: cum_routes f 0 0 t end.
Definition sol_rwd (f : nat -> nat -> Z) (sol : list nat) : list Z := rev (sol_fwd f (rev sol)).

Definition edge := (nat * nat)%type.

(** Whether there is a visit to the depot before the current edge, lines 119-125. *)
Definition depot_before (p : nat -> nat) (ld12 ld34 : option nat) (prev cur : edge) : bool :=
  let on_segment ld :=
    match ld with
    | None => false
    | Some x => ((p (snd prev) <=? x) && (x <=? p (fst cur)))%nat || ((x <=? p (snd prev)) && (p (fst cur) <=? x))%nat
    end in
  Nat.eqb (fst cur) 0 || Nat.eqb (snd prev) 5 || on_segment ld12 || on_segment ld34.

(** The loop over the new edges, lines 116-146.  Every move starts with an edge from 0, so the
    initial prev_edge (None) is not looked at; here (0, 0). *)
Fixpoint check_edges (ceps seps : Z) (D : matrix) (C L : limit) (p n : nat -> nat) (cum_d cum_l : nat -> Z)
         (ld12 ld34 : option nat) (prev : edge) (edges : list edge) (route_d route_l : Z) : bool :=
  match edges with
  | [] => true
  | cur :: t =>
      let at_depot := depot_before p ld12 ld34 prev cur in
      let route_d := if at_depot && is_set C then cum_d (fst cur) else route_d in
      let route_l := if at_depot && is_set L then cum_l (fst cur) else route_l in
      let route_d := if is_set C then route_d + cum_d (snd cur) else route_d in
      if exceeds C ceps route_d then false
      else
        let route_l := if is_set L then route_l + (D (n (fst cur)) (n (snd cur)) + cum_l (snd cur)) else route_l in
        if exceeds L seps route_l then false
        else check_edges ceps seps D C L p n cum_d cum_l ld12 ld34 cur t route_d route_l
  end.

Definition added_weights (D : matrix) (n : nat -> nat) (edges : list edge) : Z :=
  sumZ (map (fun e => D (n (fst e)) (n (snd e))) edges).

(** _check_3opt_move, lines 85-160 *)
Definition check_3opt_move (ceps seps : Z) (D : matrix) (C L : limit) (removed_weights best_delta : Z)
           (edges : list edge) (p n : nat -> nat) (cum_d cum_l : nat -> Z) (ld12 ld34 : option nat) : option Z :=
  let delta := added_weights D n edges - removed_weights in
  if delta + seps <? best_delta
  then if check_edges ceps seps D C L p n cum_d cum_l ld12 ld34 (0, 0)%nat edges 0 0 then Some delta else None
  else None.

(** MoveDefinition and MOVES_3OPTSTAR, lines 165-398: edges and concat_recipe.  The last component
    of a recipe entry is the direction ([true] = 1). *)
Definition recipe := list (option nat * option nat * bool).
Definition moves_3optstar : list (list edge * recipe) :=
  [ ([(0, 1); (2, 4); (3, 5)], [(None, Some 3, true); (Some 4, Some 2, false); (Some 5, None, true)]);
    ([(0, 4); (3, 2); (1, 5)], [(None, Some 1, true); (Some 4, Some 0, false); (Some 5, None, true)]);
    ([(0, 2); (1, 3); (4, 5)], [(None, Some 1, true); (Some 2, Some 0, false); (Some 3, None, true)]);
    ([(0, 2); (1, 4); (3, 5)], [(None, Some 1, true); (Some 2, Some 0, false); (Some 4, Some 2, false); (Some 5, None, true)]);
    ([(0, 3); (4, 1); (2, 5)], [(None, Some 1, true); (Some 3, Some 5, true); (Some 1, Some 3, true); (Some 5, None, true)]);
    ([(0, 3); (4, 2); (1, 5)], [(None, Some 1, true); (Some 3, Some 5, true); (Some 2, Some 0, false); (Some 5, None, true)]);
    ([(0, 4); (3, 1); (2, 5)], [(None, Some 1, true); (Some 4, Some 2, false); (Some 1, Some 3, true); (Some 5, None, true)]);
    ([(0, 3); (4, 5); (2, 1)], [(None, Some 1, true); (Some 3, None, true); (Some 7, Some 3, true); (Some 1, Some 7, true)]);
    ([(0, 4); (3, 5); (2, 1)], [(None, Some 1, true); (Some 4, Some 2, false); (Some 5, None, true); (Some 7, Some 3, true); (Some 1, Some 7, true)]);
    ([(0, 5); (2, 3); (4, 1)], [(None, Some 1, true); (Some 5, None, true); (Some 7, Some 5, true); (Some 1, Some 7, true)]);
    ([(0, 5); (1, 3); (4, 2)], [(None, Some 1, true); (Some 5, None, true); (Some 7, Some 3, true); (Some 4, Some 2, false); (Some 1, Some 7, true)]);
    ([(0, 1); (2, 5); (4, 3)], [(None, Some 3, true); (Some 5, None, true); (Some 9, Some 5, true); (Some 3, Some 9, true)]);
    ([(0, 2); (1, 5); (4, 3)], [(None, Some 1, true); (Some 2, Some 0, false); (Some 5, None, true); (Some 9, Some 5, true); (Some 3, Some 9, true)]);
    ([(0, 5); (4, 1); (2, 3)], [(None, Some 1, true); (Some 5, None, true); (Some 9, Some 5, true); (Some 1, Some 9, true)]);
    ([(0, 5); (4, 2); (1, 3)], [(None, Some 1, true); (Some 5, None, true); (Some 9, Some 5, true); (Some 2, Some 0, false); (Some 3, Some 9, true)]);
    ([(0, 5); (2, 1); (4, 3)], [(None, Some 1, true); (Some 5, None, true); (Some 7, Some 3, true); (Some 1, Some 7, true); (Some 9, Some 5, true); (Some 3, Some 9, true)])
  ]%nat.

(** The move sets, lines 400-404 and 525-534. *)
Definition moves_for (depot12 depot34 : bool) : list (list edge * recipe) :=
  match depot12, depot34 with
  | true, true => moves_3optstar
  | true, false => firstn 11 moves_3optstar
  | false, true => firstn 7 moves_3optstar ++ firstn 4 (skipn 11 moves_3optstar)
  | false, false => firstn 7 moves_3optstar
  end.

(** Leftmost and rightmost visit to the depot in positions a..b; the code keeps them up to date
    while b grows (lines 449-470). *)
Definition ldepot (sol : list nat) (a b : nat) : option nat := find (fun p => Nat.eqb (at_ sol p) 0) (range a (b + 1)).
Definition rdepot (sol : list nat) (a b : nat) : option nat := find (fun p => Nat.eqb (at_ sol p) 0) (rev (range a (b + 1))).

Definition tab {A} (l : list A) (x : A) (i : nat) : A := nth i l x.

(** The cached tables for i, j, k, lines 443-500. *)
Definition end_p (i j k : nat) : nat -> nat := tab [i; i + 1; j; j + 1; k; k + 1]%nat 0%nat.
Definition or_zero (ld : option nat) (x : Z) : Z := match ld with None => x | Some _ => 0 end.
Definition cum_d_tab (d : demands) (sol : list nat) (i j k : nat) : nat -> Z :=
  let fwd p := nth p (sol_fwd (fun _ n => d n) sol) 0 in
  let rwd p := nth p (sol_rwd (fun _ n => d n) sol) 0 in
  let ld12 := ldepot sol (i + 1) j in
  let ld34 := ldepot sol (j + 1) k in
  tab [ fwd i; rwd (i + 1)%nat - or_zero ld12 (rwd (j + 1)%nat);
        fwd j - or_zero ld12 (fwd i); rwd (j + 1)%nat - or_zero ld34 (rwd (k + 1)%nat);
        fwd k - or_zero ld34 (fwd j); rwd (k + 1)%nat ] 0.
Definition cum_l_tab (D : matrix) (sol : list nat) (i j k : nat) : nat -> Z :=
  let fwd p := nth p (sol_fwd D sol) 0 in
  let rwd p := nth p (sol_rwd D sol) 0 in
  let ld12 := ldepot sol (i + 1) j in
  let ld34 := ldepot sol (j + 1) k in
  tab [ fwd i; rwd (i + 1)%nat - or_zero ld12 (rwd j);
        fwd j - or_zero ld12 (fwd (i + 1)%nat); rwd (j + 1)%nat - or_zero ld34 (rwd k);
        fwd k - or_zero ld34 (fwd (j + 1)%nat); rwd (k + 1)%nat ] 0.

(** cut_positions, lines 546-550 *)
Definition cuts_of (sol : list nat) (i j k : nat) : list (option nat) :=
  [Some i; Some (i + 1); Some j; Some (j + 1); Some k; Some (k + 1);
   option_map S (ldepot sol (i + 1) j); option_map S (rdepot sol (i + 1) j);
   option_map S (ldepot sol (j + 1) k); option_map S (rdepot sol (j + 1) k)]%nat.

(** [solution[from_pos:to_pos:direction]] for in-range bounds; every backward slice has both. *)
Definition py_slice (sol : list nat) (from to : option nat) (fwd : bool) : list nat :=
  match fwd, from, to with
  | true, None, None => sol
  | true, None, Some b => slice_to b sol
  | true, Some a, None => slice_from a sol
  | true, Some a, Some b => slice a b sol
  | false, Some a, Some b => rslice a b sol
  | false, _, _ => []
  end.

(** One entry of the recipe, lines 571-586: a depot at the start of the piece is skipped if the
    new solution already ends with one. *)
Definition recipe_step (sol : list nat) (cuts : list (option nat)) (new : list nat) (s : option nat * option nat * bool) : list nat :=
  let '(f, t, fwd) := s in
  let from := match f with Some x => nth x cuts None | None => None end in
  let to := match t with Some x => nth x cuts None | None => None end in
  let skip := match new with [] => false | _ => Nat.eqb (last new 0%nat) 0 end &&
              match from with Some a => Nat.eqb (at_ sol a) 0 | None => false end in
  let from := if skip then match from with Some a => Some (if fwd then a + 1 else a - 1)%nat | None => None end else from in
  new ++ py_slice sol from to fwd.
Definition apply_recipe (sol : list nat) (cuts : list (option nat)) (r : recipe) : list nat :=
  fold_left (recipe_step sol cuts) r [].

(** The arguments a move checker gets besides D, C and L. *)
Definition checker := Z -> Z -> list edge -> (nat -> nat) -> (nat -> nat) -> (nat -> Z) -> (nat -> Z) -> option nat -> option nat -> option Z.

(** The body of the innermost loop over i, j, k, lines 457-560. *)
Definition try_moves (check : checker) (sol : list nat) (D : matrix) (d : demands) (first : bool) (i j k : nat)
           (s : option (recipe * list (option nat)) * Z) : (option (recipe * list (option nat)) * Z) * bool :=
  let p := end_p i j k in
  let n := fun x => at_ sol (p x) in
  let ld12 := ldepot sol (i + 1) j in
  let ld34 := ldepot sol (j + 1) k in
  let removed_weights := D (n 0%nat) (n 1%nat) + D (n 2%nat) (n 3%nat) + D (n 4%nat) (n 5%nat) in
  let moves := moves_for (match ld12 with Some _ => true | None => false end) (match ld34 with Some _ => true | None => false end) in
  for_break moves (fun m s =>
    match check removed_weights (snd s) (fst m) p n (cum_d_tab d sol i j k) (cum_l_tab D sol i j k) ld12 ld34 with
    | Some delta => ((Some (snd m, cuts_of sol i j k), delta), first)
    | None => (s, false)
    end) s.

(** do_3optstar_move, lines 406-598, with any move checker *)
Definition do_3optstar_with (check : checker) (sol : list nat) (D : matrix) (d : demands) (first : bool) (best_delta : option Z)
  : option (list nat * Z) :=
  let sN := length sol in
  let '((best_move, bd), _) :=
    for_break (range 0 (sN - 1)) (fun i s =>
      for_break (range (i + 1) (sN - 1)) (fun j s =>
        for_break (range (j + 1) (sN - 1)) (fun k s => try_moves check sol D d first i j k s) s) s)
      (None, match best_delta with Some b => b | None => 0 end) in
  match best_move with
  | Some (r, cuts) => Some (apply_recipe sol cuts r, bd)
  | None => None
  end.
(** ... with the default move checker *)
Definition do_3optstar_move (ceps seps : Z) (sol : list nat) (D : matrix) (d : demands) (C L : limit) (first : bool) (best_delta : option Z)
  : option (list nat * Z) :=
  do_3optstar_with (check_3opt_move ceps seps D C L) sol D d first best_delta.
