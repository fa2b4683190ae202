(** * Model of verypy/cvrp_ops.py *)
From Verif Require Import Spec PyBase M_util.

(** _list_trim, cvrp_ops.py:33-40 *)
Fixpoint trim_left (e : nat) (l : list nat) : list nat :=
  match l with
  | x :: t => if Nat.eqb x e then trim_left e t else l
  | [] => []
  end.
Definition list_trim (l : list nat) (e : nat) : list nat :=
  rev (trim_left e (rev (trim_left e l))).

(** _list_split, cvrp_ops.py:42-44 *)
Definition list_split (l : list nat) (e : nat) : list (list nat) :=
  map snd (filter (fun g => negb (fst g)) (groupby Bool.eqb (fun x => Nat.eqb x e) l)).

(** The argument of normalize_solution / recalculate_objective: a giant tour or a
    list of routes ([hasattr(sol[0],'__len__')]). *)
Inductive sol_arg := Giant (sol : list nat) | Routes (rs : list (list nat)).

(** cvrp_ops.py:61-65, one route; [None] is the IndexError of [route[-1]] on []. *)
Definition orient (route : list nat) : option (list nat) :=
  match route with
  | [] => None
  | x :: _ => if Nat.ltb (last route 0%nat) x then Some (rev route) else Some route
  end.

Fixpoint orient_all (rs : list (list nat)) : option (list (list nat)) :=
  match rs with
  | [] => Some []
  | r :: t =>
      match orient r, orient_all t with
      | Some r', Some t' => Some (r' :: t')
      | _, _ => None
      end
  end.

(** normalize_solution, cvrp_ops.py:46-74; [None] is an IndexError
    ([sol[0]] of an empty argument, or an empty route in list form). *)
Definition normalize_solution (sol : sol_arg) : option (list nat) :=
  let routes := match sol with
                | Giant [] | Routes [] => None
                | Giant s => Some (list_split s 0)
                | Routes rs => Some (map (fun r => list_trim r 0) rs)
                end in
  match routes with
  | None => None
  | Some rs =>
      match orient_all rs with
      | None => None
      | Some nroutes => Some (fold_left (fun nsol nroute => nsol ++ (nroute ++ [0%nat]))
                                        (lex_sort nroutes) [0%nat])
      end
  end.

(** ** validate_solution_feasibility, cvrp_ops.py:85-191 *)

(** The [covering] array and the [covering_feasibility] flag; lines 124-130 and 146-152.
    The array of length N is a function (node ids are assumed < N). *)
Record cover_st := mkcov { covering : nat -> bool; cover_flag : bool }.
Definition cover_init : cover_st := mkcov (fun _ => false) true.
Definition cover_visit (s : cover_st) (node : nat) : cover_st :=
  if covering s node then
    (if Nat.eqb node 0 then s else mkcov (covering s) false)
  else mkcov (fun k => if Nat.eqb k node then true else covering s k) (cover_flag s).

(** First loop, lines 122-140: from the beginning to the first depot. Returns the
    cover state, tail_c, tail_l, prev_node and start_node ([None] is -1). *)
Fixpoint head_loop (D : matrix) (d : demands) (setC setL : bool) (sol : list nat) (i : nat)
         (prev : nat) (cs : cover_st) (tail_c tail_l : Z)
  : cover_st * Z * Z * nat * option nat :=
  match sol with
  | [] => (cs, tail_c, tail_l, prev, None)
  | node :: t =>
      let cs' := cover_visit cs node in
      let tail_c' := if setC then tail_c + d node else tail_c in
      let tail_l' := if setL then tail_l + D prev node else tail_l in
      let prev' := if setL then node else prev in
      if Nat.eqb node 0 then (cs', tail_c', tail_l', prev', Some i)
      else head_loop D d setC setL t (i + 1) prev' cs' tail_c' tail_l'
  end.

(** Second loop, lines 142-172. State: cover, c, l, prev_node and the two flags. *)
Record rest_st := mkrest { r_cov : cover_st; r_c : Z; r_l : Z; r_prev : nat;
                           r_capf : bool; r_lenf : bool }.
Definition rest_step (D : matrix) (d : demands) (C L : limit) (eps : Z)
           (s : rest_st) (node : nat) : rest_st :=
  let cov := cover_visit (r_cov s) node in
  let setC := match truthy C with Some _ => true | None => false end in
  let setL := match truthy L with Some _ => true | None => false end in
  let c := if setC && negb (Nat.eqb node 0) then r_c s + d node else r_c s in
  let capf := if setC && Nat.eqb node 0 && exceeds C eps (r_c s) then false else r_capf s in
  let l := if setL then r_l s + D (r_prev s) node else r_l s in
  let prev := if setL then node else r_prev s in
  let lenf := if setL && Nat.eqb node 0 && exceeds L eps l then false else r_lenf s in
  if Nat.eqb node 0 then mkrest cov 0 0 prev capf lenf
  else mkrest cov c l prev capf lenf.

Definition count_true (N : nat) (f : nat -> bool) : nat := length (filter f (seq 0 N)).

(** The whole function for a non-empty solution ([solution[-1]] of an empty list is an
    IndexError: [None]); D given so N = len(D). *)
Definition validate_solution_feasibility (N : nat) (sol : list nat) (D : matrix) (d : demands)
           (C L : limit) (eps : Z) : option (bool * bool * bool) :=
  match sol with
  | [] => None
  | _ =>
    let setC := match truthy C with Some _ => true | None => false end in
    let setL := match truthy L with Some _ => true | None => false end in
    let '(cs, tail_c, tail_l, prev, start) :=
        head_loop D d setC setL sol 0 (last sol 0%nat) cover_init 0 0 in
    let rest := match start with Some i => skipn (i + 1) sol | None => sol end in
    let s := fold_left (rest_step D d C L eps) rest (mkrest cs 0 0 prev true true) in
    let covf := if Nat.eqb (count_true N (covering (r_cov s))) N
                then cover_flag (r_cov s) else false in
    let capf := if exceeds C eps (r_c s + tail_c) then false else r_capf s in
    let lenf := if exceeds L eps (r_l s + tail_l) then false else r_lenf s in
    Some (covf, capf, lenf)
  end.

(** ** recalculate_objective, cvrp_ops.py:193-221; [None] is an IndexError
    (empty argument or an empty route). *)
Definition consecutive_sum (D : matrix) (l : list nat) : Z :=
  sumZ (map (fun i => D (at_ l (i - 1)) (at_ l i)) (range 1 (length l))).

Fixpoint recalc_routes (D : matrix) (rs : list (list nat)) (f : Z) : option Z :=
  match rs with
  | [] => Some f
  | [] :: _ => None
  | ((x :: _) as route) :: t =>
      let f1 := f + consecutive_sum D route in
      let f2 := if negb (Nat.eqb x 0) then f1 + D 0%nat x else f1 in
      let f3 := if negb (Nat.eqb (last route 0%nat) 0) then f2 + D (last route 0%nat) 0%nat else f2 in
      recalc_routes D t f3
  end.

Definition recalculate_objective (sol : sol_arg) (D : matrix) : option Z :=
  match sol with
  | Giant [] | Routes [] => None
  | Giant ((x :: _) as s) => Some (consecutive_sum D s + D (last s 0%nat) x)
  | Routes rs => recalc_routes D rs 0
  end.

(** ** D2D_c, cvrp_ops.py:223-252

    All numbers are integers counting multiples of 1/(2*u): the number one is [2*u]
    and every value handled is a multiple of 1/u, i.e. an even count, so that halving is exact.
    [int_dtype] tells whether D holds integers.  [trunc] is Python's [int()] / the cast
    [D.dtype.type(st)] of an integer matrix. [None] is the ValueError for st = 0/None. *)
Definition trunc (u x : Z) : Z := Z.quot x (2 * u) * (2 * u).

Definition D2D_c (u : Z) (int_dtype : bool) (D : matrix) (st : option Z) : option matrix :=
  match truthy st with
  | None => None
  | Some stv =>
      let tst := if int_dtype then trunc u stv else stv in
      let halftst := if negb (tst =? stv) || negb (tst / 2 =? stv / 2)
                     then tst / 2              (* float copy, tst/2.0 *)
                     else trunc u (tst / 2) in (* int(tst/2) *)
      Some (fun i j =>
              if Nat.eqb i j then 0            (* np.fill_diagonal *)
              else
                let x := D i j in
                let x := if negb (Nat.eqb i 0) && negb (Nat.eqb j 0) then x + tst else x in
                let x := if Nat.eqb i 0 then x + halftst else x in
                let x := if Nat.eqb j 0 then x + halftst else x in x)
  end.
