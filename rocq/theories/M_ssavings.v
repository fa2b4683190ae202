(** * Model of verypy/classic_heuristics/sequential_savings.py

    The set [unrouted] is a list of distinct nodes in increasing order (the order is visible to
    the savings callback, which sorts, and to the interrupt handler).  Lists that are popped
    from the end ([seed_customers], [savings]) are kept in the order of popping, i.e. reversed.
    Callbacks return pairs of nodes of the instance.  Logging is left out; interrupts are as in
    M_psavings. *)
From Verif Require Import Spec PyBase M_util M_psavings.

Definition mem (x : nat) (l : list nat) : bool := existsb (Nat.eqb x) l.
Definition del (x : nat) (l : list nat) : list nat := filter (fun y => negb (Nat.eqb x y)) l.

(** clarke_wright_savings, lines 35-38, in the order of popping *)
Definition clarke_wright_seq (D : matrix) (unrouted : list nat) (i : nat) : list saving :=
  sort_reverse (map (fun j => (D i 0%nat + D 0%nat j - D i j, - D i j, i, j)) (filter (fun j => negb (Nat.eqb i j)) unrouted)).

(** initialize_routes_with, lines 88-107, in the order of popping.  [None]: the ValueError of
    unpacking [zip()] of an empty list (line 102).  Sorting by (D[0][i], i) is insertion sort. *)
Inductive seed_mode := Closest | Farthest | First | Last | Savings.
Definition seed_leb (D : matrix) (a b : nat) : bool :=
  if D 0%nat a =? D 0%nat b then Nat.leb a b else D 0%nat a <? D 0%nat b.
Fixpoint seed_insert (D : matrix) (x : nat) (l : list nat) : list nat :=
  match l with
  | [] => [x]
  | y :: t => if seed_leb D x y then x :: y :: t else y :: seed_insert D x t
  end.
Definition seed_sort (D : matrix) (l : list nat) : list nat := fold_right (seed_insert D) [] l.
Definition seed_order (N : nat) (D : matrix) (m : seed_mode) : option (list nat) :=
  match m with
  | Closest => Some (seed_sort D (range 1 N))
  | Farthest => Some (rev (seed_sort D (range 1 N)))
  | First => Some (rev (range 1 N))
  | Last => Some (range 0 N)
  | Savings =>
      match sort_reverse (flat_map (clarke_wright_seq D (range 1 N)) (range 1 N)) with
      | [] => None
      | l => Some (map snd l)
      end
  end.

Inductive spoint :=
| S_start        (* at the loop test, line 115 *)
| S_seeded       (* after emerging_route_nodes = deque([seed]), line 123 *)
| S_seed_removed (* after unrouted.remove(seed), line 124; and up to the next change *)
| S_appended     (* after appendleft / append, lines 176-179 *)
| S_removed      (* after unrouted.remove(j), line 180 *)
| S_closed       (* after emerging_route_nodes.append(0), line 197 *)
| S_added        (* after solution+=emerging_route_nodes, line 198 *)
| S_reset.       (* after emerging_route_nodes = None, line 199 *)

(** solution, emerging_route_nodes, unrouted *)
Record sstate := mkss { ss_sol : list nat; ss_em : option (list nat); ss_unr : list nat }.

(** [while True: seed = seed_customers.pop() ...], lines 118-121: the seed and the remaining
    seeds.  [None]: IndexError, pop from an empty list. *)
Fixpoint next_seed (unrouted seeds : list nat) : option (nat * list nat) :=
  match seeds with
  | [] => None
  | s :: t => if mem s unrouted then Some (s, t) else next_seed unrouted t
  end.

(** The loop over the savings, lines 135-184, for the emerging route [em] with demand [rd] and
    length [rl].  Result: the emerging route, the unrouted customers, the points passed.
    [n] bounds the number of merges; [None] if it is exhausted. *)
Fixpoint merge_loop (ceps seps : Z) (D : matrix) (d : demands) (C L : limit) (minimize_K : bool)
         (cb : list nat -> nat -> list saving) (sol : list nat) (n : nat)
  : list saving -> list nat -> Z -> Z -> list nat -> option (list nat * list nat * list (spoint * sstate)) :=
  fix scan savings em rd rl unrouted :=
    match savings with
    | [] => Some (em, unrouted, [])
    | (_, _, i, j) :: t =>
        if negb minimize_K && (D i 0%nat + D 0%nat j - D i j <? 0) then Some (em, unrouted, [])  (* savings = []; break *)
        else if negb (mem j unrouted) then scan t em rd rl unrouted
        else if exceeds C ceps (rd + d j) then scan t em rd rl unrouted
        else
          let left := Nat.eqb (hd 0%nat em) i in
          let right := Nat.eqb (last em 0%nat) i && (1 <? length em)%nat in
          if negb (left || right) then scan t em rd rl unrouted
          else
            let delta := D 0%nat j + D i j - D 0%nat i in
            if exceeds L seps (rl + delta) then scan t em rd rl unrouted
            else
              let rl' := if is_set L then rl + delta else rl in
              let rd' := if is_set C then rd + d j else rd in
              let em1 := if left then j :: em else em in
              let em2 := if right then em1 ++ [j] else em1 in
              let unr' := del j unrouted in
              match n with
              | O => None
              | S n' =>
                  match merge_loop ceps seps D d C L minimize_K cb sol n'
                          (sort_reverse (t ++ cb unr' j)) em2 rd' rl' unr' with
                  | None => None
                  | Some (em', unr'', pts) =>
                      Some (em', unr'', (S_appended, mkss sol (Some em2) unrouted) :: (S_removed, mkss sol (Some em2) unr') :: pts)
                  end
              end
    end.

(** The main loop, lines 115-199.  [n] bounds the number of routes. *)
Fixpoint route_loop (ceps seps : Z) (D : matrix) (d : demands) (C L : limit) (minimize_K : bool)
         (cb : list nat -> nat -> list saving) (n : nat) (seeds sol unrouted : list nat)
  : option (list nat * list (spoint * sstate)) :=
  match unrouted with
  | [] => Some (sol, [])
  | _ =>
      match n with
      | O => None
      | S n' =>
          match next_seed unrouted seeds with
          | None => None
          | Some (seed, seeds') =>
              let unr1 := del seed unrouted in
              let rd := if is_set C then d seed else 0 in
              let rl := if is_set L then D 0%nat seed + D seed 0%nat else 0 in
              match merge_loop ceps seps D d C L minimize_K cb sol (length unr1) (cb unr1 seed) [seed] rd rl unr1 with
              | None => None
              | Some (em, unr2, pts) =>
                  let sol' := sol ++ em ++ [0%nat] in
                  match route_loop ceps seps D d C L minimize_K cb n' seeds' sol' unr2 with
                  | None => None
                  | Some (sol'', pts') =>
                      Some (sol'',
                            [(S_seeded, mkss sol (Some [seed]) unrouted); (S_seed_removed, mkss sol (Some [seed]) unr1)]
                            ++ pts ++
                            [(S_closed, mkss sol (Some (em ++ [0%nat])) unr2);
                             (S_added, mkss sol' (Some (em ++ [0%nat])) unr2);
                             (S_reset, mkss sol' None unr2)] ++ pts')
                  end
              end
          end
      end
  end.

(** sequential_savings_init, lines 40-209, with the points passed. *)
Definition ss_run ceps seps (N : nat) D d C L minimize_K cb (seeds : list nat) : option (list nat * list (spoint * sstate)) :=
  match route_loop ceps seps D d C L minimize_K cb N seeds [0%nat] (range 1 N) with
  | None => None
  | Some (sol, pts) => Some (sol, (S_start, mkss [0%nat] None (range 1 N)) :: pts)
  end.
Definition sequential_savings_init ceps seps N D d C L minimize_K cb seeds : option (list nat) :=
  option_map fst (ss_run ceps seps N D d C L minimize_K cb seeds).

(** The interrupt handler, lines 201-207. *)
Definition ss_interrupted (p : spoint * sstate) : list nat :=
  let st := snd p in
  let sol1 := match ss_em st with
              | Some (x :: em) => ss_sol st ++ (x :: em) ++ [0%nat]
              | _ => ss_sol st
              end in
  sol1 ++ tl (routes2sol_gen (map (fun n => Some [n]) (ss_unr st))).
