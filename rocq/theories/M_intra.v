(** * Model of verypy/local_search/intra_route_operators.py *)
From Verif Require Import Spec PyBase M_util.

(** [if not best_delta: best_delta = 0] (lines 67-68, 109-110, 276-277, 327-328). *)
Definition start_delta (best_delta : option Z) : Z :=
  match best_delta with Some b => b | None => 0 end.

(** The acceptance test common to all operators:
    [if delta+S_EPS<best_delta: best_move = m; best_delta = delta; if FIRST_ACCEPT: break].
    State: (best_move, best_delta). [first] is strategy==LSOPT.FIRST_ACCEPT. *)
Definition try_move {M} (eps : Z) (first : bool) (delta : Z) (m : M) (s : option M * Z)
  : (option M * Z) * bool :=
  if delta + eps <? snd s then ((Some m, delta), first) else (s, false).

(** do_2opt_move, lines 59-102 *)
Definition do_2opt_move (eps : Z) (route : list nat) (D : matrix) (first : bool)
           (best_delta : option Z) : option (list nat * Z) :=
  let rN := length route in
  let '((best_move, bd), _) :=
    for_break (range 0 (rN - 1)) (fun i s =>
      for_break (range (i + 1) (rN - 1)) (fun j s =>
        let a := at_ route i in
        let b := at_ route (i + 1) in
        let c := at_ route j in
        let d := at_ route (j + 1) in
        let delta := D a c + D b d - D a b - D c d in
        try_move eps first delta (i, j) s) s)
      (None, start_delta best_delta) in
  match best_move with
  | Some (i, j) =>
      Some (slice_to (i + 1) route ++ rslice j i route ++ slice_from (j + 1) route, bd)
  | None => None
  end.

(** The segments of a 3-opt move, lines 143-144 etc.: (start, stop, step) of Python slices.
    [Fwd a b] is route[a:b:1], [Bwd a b] is route[a:b:-1], head is route[:i+1:1], tail
    is route[k+1::1]. *)
Inductive seg := Fwd (a b : nat) | Bwd (a b : nat).
Definition get_seg (route : list nat) (s : seg) : list nat :=
  match s with Fwd a b => slice a b route | Bwd a b => rslice a b route end.
(** (head stop, segment 2, segment 3, tail start) *)
Definition move3 := (nat * seg * seg * nat)%type.

(** Body of the innermost loop, lines 117-245: the alternatives in order with their
    deltas.  Line 156 is the comparison [delta==...] whose result is discarded, so the
    second alternative is tested with the delta of the first. *)
Definition cands_3opt (route : list nat) (D : matrix) (i j k : nat) : list (Z * move3) :=
  let a := at_ route i in
  let b := at_ route (i + 1) in
  let c := at_ route j in
  let d := at_ route (j + 1) in
  let e := at_ route k in
  let f := at_ route (k + 1) in
  let removed_weights := D a b + D c d + D e f in
  let delta1 := (D a b + D c e + D d f) - removed_weights in
  let i1 := (i + 1)%nat in
  let j1 := (j + 1)%nat in
  let k1 := (k + 1)%nat in
  [ (delta1, (i1, Fwd i1 j1, Bwd k j, k1));
    (delta1, (i1, Bwd j i, Fwd j1 k1, k1));
    ((D a e + D d c + D b f) - removed_weights, (i1, Bwd k j, Bwd j i, k1));
    ((D a c + D b e + D d f) - removed_weights, (i1, Bwd j i, Bwd k j, k1));
    ((D a d + D e b + D c f) - removed_weights, (i1, Fwd j1 k1, Fwd i1 j1, k1));
    ((D a d + D e c + D b f) - removed_weights, (i1, Fwd j1 k1, Bwd j i, k1));
    ((D a e + D d b + D c f) - removed_weights, (i1, Bwd k j, Fwd i1 j1, k1)) ].

(** do_3opt_move, lines 104-263 *)
Definition do_3opt_move (eps : Z) (route : list nat) (D : matrix) (first : bool)
           (best_delta : option Z) : option (list nat * Z) :=
  let rN := length route in
  let '((best_move, bd), _) :=
    for_break (range 0 (rN - 1)) (fun i s =>
      for_break (range (i + 1) (rN - 1)) (fun j s =>
        for_break (range (j + 1) (rN - 1)) (fun k s =>
          for_break (cands_3opt route D i j k) (fun c s => try_move eps first (fst c) (snd c) s) s) s) s)
      (None, start_delta best_delta) in
  match best_move with
  | Some (h, s2, s3, t) =>
      Some (slice_to h route ++ get_seg route s2 ++ get_seg route s3 ++ slice_from t route, bd)
  | None => None
  end.

(** do_relocate_move, lines 265-315 *)
Definition do_relocate_move (eps : Z) (route : list nat) (D : matrix) (first : bool)
           (best_delta : option Z) : option (list nat * Z) :=
  let rN := length route in
  let '((best_move, bd), _) :=
    for_break (range 1 (rN - 1)) (fun i s =>
      for_break (range 1 rN) (fun j s =>
        if Nat.eqb i j || Nat.eqb j (i - 1) then (s, false)      (* continue *)
        else
          let a := at_ route (i - 1) in
          let b := at_ route i in
          let c := at_ route (i + 1) in
          let d := at_ route (j - 1) in
          let e := at_ route j in
          if Nat.eqb d b || Nat.eqb e b then (s, false)          (* continue *)
          else
            let delta := - D a b - D b c + D a c - D d e + D d b + D b e in
            try_move eps first delta (i, j) s) s)
      (None, start_delta best_delta) in
  match best_move with
  | Some (i, j) =>
      if Nat.ltb i j
      then Some (slice_to i route ++ slice (i + 1) j route ++ [at_ route i] ++ slice_from j route, bd)
      else Some (slice_to j route ++ [at_ route i] ++ slice j i route ++ slice_from (i + 1) route, bd)
  | None => None
  end.

(** do_exchange_move, lines 317-364 *)
Definition do_exchange_move (eps : Z) (route : list nat) (D : matrix) (first : bool)
           (best_delta : option Z) : option (list nat * Z) :=
  let rN := length route in
  let '((best_move, bd), _) :=
    for_break (range 1 (rN - 1)) (fun i s =>
      for_break (range (i + 1) (rN - 1)) (fun j s =>
        if Nat.eqb i j then (s, false)                            (* continue *)
        else
          let a := at_ route (i - 1) in
          let b := at_ route i in
          let c := at_ route (i + 1) in
          let d := at_ route (j - 1) in
          let e := at_ route j in
          let f := at_ route (j + 1) in
          let delta :=
            if Nat.eqb c e
            then - D a b - D b e - D e f + D a e + D e b + D b f
            else - D a b - D b c + D a e + D e c - D d e - D e f + D d b + D b f in
          try_move eps first delta (i, j) s) s)
      (None, start_delta best_delta) in
  match best_move with
  | Some (i, j) =>
      Some (slice_to i route ++ [at_ route j] ++ slice (i + 1) j route ++ [at_ route i]
            ++ slice_from (j + 1) route, bd)
  | None => None
  end.

(** ** tsp_solvers/tsp_solver_ropt.py *)

(** The two while loops, lines 38-46 and 50-58: repeat [op] (called with strategy 1 =
    FIRST_ACCEPT) while it returns a route. [None]: out of fuel. *)
Fixpoint repeat_op (op : list nat -> option (list nat * Z)) (fuel : nat) (route : list nat) (cost : Z)
  : option (list nat * Z) :=
  match fuel with
  | O => None
  | S fuel' =>
      match op route with
      | Some (route', delta) => repeat_op op fuel' route' (cost + delta)
      | None => Some (route, cost)
      end
  end.

(** solve_tsp_ropt, lines 21-60.  [shuffled] is [None] for do_shuffle=False, otherwise the
    outcome of random.shuffle on selected_idxs[1:].  The outer option is the fuel; the
    IndexError for empty selected_idxs is [Some None]. *)
Definition solve_tsp_ropt (eps : Z) (fuel : nat) (D : matrix) (selected_idxs : list nat)
           (shuffled : option (list nat)) (do2opt do3opt : bool) : option (option (list nat * Z)) :=
  match selected_idxs with
  | [] => Some None
  | endp :: _ =>
      let new_route := match shuffled with
                       | Some p => [endp] ++ p ++ [endp]
                       | None => if negb (Nat.eqb (last selected_idxs 0%nat) endp)
                                 then selected_idxs ++ [endp] else selected_idxs
                       end in
      let r1 := if do2opt
                then repeat_op (fun r => do_2opt_move eps r D true None) fuel new_route (objf new_route D)
                else Some (new_route, objf new_route D) in
      match r1 with
      | None => None
      | Some (route, cost) =>
          let r2 := if do3opt
                    then repeat_op (fun r => do_3opt_move eps r D true None) fuel route cost
                    else Some (route, cost) in
          match r2 with None => None | Some rc => Some (Some rc) end
      end
  end.

(** solve_tsp_2opt, solve_tsp_3opt, lines 12-18 *)
Definition solve_tsp_2opt eps fuel D idxs := solve_tsp_ropt eps fuel D idxs None true false.
Definition solve_tsp_3opt eps fuel D idxs := solve_tsp_ropt eps fuel D idxs None false true.
