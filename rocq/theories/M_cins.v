(** * Model of verypy/classic_heuristics/cheapest_insertion.py and of the insertion callback of
    mole_jameson_insertion.py

    Nodes of the linked list are identified with the customers on them: a customer is on a route at
    most once, an insertion refers to the nodes of its own route only, and the first node is never
    "before" and the last one never "after".  The set [unrouted] is a list without repetitions; the
    order in which Python iterates over it shows only in the identities [id(insertion)] of the
    insertions (arbitrary here, see [ident]) and in the order of the single customer routes added on
    an interrupt.  Demands are given; without demands and without C use 0.  heapq is taken to be
    correct: heappop removes a smallest entry.  Logging is left out. *)
From Verif Require Import Spec PyBase M_util M_intra M_psavings.

(** ** Insertion, lines 96-97, with its heap entry ((-strain, secondary, l_saving), id, insertion) *)
Record insertion := mkins { in_cust : nat; in_after : nat; in_before : nat; in_dl : Z; in_dd : Z }.
Record entry := mkentry { en_strain : Z; en_second : Z; en_saving : Z; en_id : Z; en_ins : insertion }.

Definition entry_leb (a b : entry) : bool :=
  if en_strain a <? en_strain b then true else if en_strain b <? en_strain a then false else
  if en_second a <? en_second b then true else if en_second b <? en_second a then false else
  if en_saving a <? en_saving b then true else if en_saving b <? en_saving a then false else
  en_id a <=? en_id b.

(** heappop on a non-empty heap (the heap as the list of its entries) *)
Fixpoint pop_min (e : entry) (l : list entry) : entry * list entry :=
  match l with
  | [] => (e, [])
  | x :: t => let '(m, r) := pop_min x t in if entry_leb e m then (e, x :: t) else (m, e :: r)
  end.

(** ** _EmergingRouteData, lines 48-69; [r_route] is list(route), depots included. *)
Record rdata := mkrd { r_route : list nat; r_cost : Z; r_cap : Z; r_heap : list entry }.
Definition rd_new (seed : list nat) (D : matrix) (d : demands) : rdata :=
  match seed with
  | [] => mkrd [0; 0]%nat 0 0 []
  | _ => let lroute := [0%nat] ++ seed ++ [0%nat] in mkrd lroute (objf lroute D) (sumZ (map d lroute)) []
  end.
Definition export_solution (rds : list rdata) : list nat :=
  flat_map (fun rd => if Nat.ltb 2 (length (r_route rd)) then tl (r_route rd) else []) rds.

Definition mem (x : nat) (l : list nat) : bool := existsb (Nat.eqb x) l.
Definition del (x : nat) (l : list nat) : list nat := filter (fun y => negb (Nat.eqb x y)) l.

(** ** _initialize_new_route, lines 71-93, up to the removal from [unrouted].  The stack of seeds is
    given top first.  [None]: IndexError from pop.  The test [chosen is None] of line 90 never holds. *)
Fixpoint choose (cands chosen unrouted : list nat) : list nat :=
  match cands with
  | [] => chosen
  | c :: t => if negb (mem c unrouted) then []
              else choose t (if mem c chosen then chosen else chosen ++ [c]) unrouted
  end.
Fixpoint pick_seed (seeds : list (list nat)) (unrouted : list nat) : option (list nat * list (list nat)) :=
  match seeds with
  | [] => None
  | cands :: t => match choose cands [] unrouted with
                  | [] => pick_seed t unrouted
                  | chosen => Some (chosen, t)
                  end
  end.
Definition del_all (xs unrouted : list nat) : list nat := fold_left (fun u x => del x u) xs unrouted.

(** Pairs of neighbours on the route, and insertion between two of them *)
Fixpoint edges (l : list nat) : list (nat * nat) :=
  match l with
  | a :: ((b :: _) as t) => (a, b) :: edges t
  | _ => []
  end.
Definition adjacent (a b : nat) (l : list nat) : bool :=
  existsb (fun e => Nat.eqb (fst e) a && Nat.eqb (snd e) b) (edges l).
(** dllist.insert(c, before_node) *)
Fixpoint insert_between (a b c : nat) (l : list nat) : list nat :=
  match l with
  | x :: ((y :: _) as t) => if Nat.eqb x a && Nat.eqb y b then x :: c :: t else x :: insert_between a b c t
  | _ => l
  end.

Section Insertion.
Variables ceps seps : Z.
Variable D : matrix.
Variable d : demands.
Variables C L : limit.
(** insertion_strain_callback *)
Variable strain : nat -> nat -> nat -> Z * Z.
(** insert_callback: [None] out of fuel, [Some None] rejected, otherwise the new data and the new edges *)
Variable callback : insertion -> rdata -> option (option (rdata * list (nat * nat))).
(** id of the n-th insertion made: arbitrary *)
Variable ident : nat -> Z.

(** _new_potential_insertions, lines 98-126, one customer: [None] if skipped *)
Definition offer (rd : rdata) (a b : nat) (n : nat) (c : nat) : option entry :=
  let l_delta := - D a b + D a c + D c b in
  let d_delta := if is_set C then d c else 0 in
  if exceeds C ceps (r_cap rd + d_delta) then None else
  if exceeds L seps (r_cost rd + l_delta) then None else
  Some (mkentry (- fst (strain a c b)) (snd (strain a c b)) (l_delta - D 0%nat c - D c 0%nat) (ident n)
                (mkins c a b l_delta d_delta)).
Definition push (rd : rdata) (e : entry) : rdata := mkrd (r_route rd) (r_cost rd) (r_cap rd) (e :: r_heap rd).
Fixpoint push_all (unrouted : list nat) (a b : nat) (rd : rdata) (n : nat) : rdata * nat :=
  match unrouted with
  | [] => (rd, n)
  | c :: t => match offer rd a b n c with
              | Some e => push_all t a b (push rd e) (S n)
              | None => push_all t a b rd n
              end
  end.
Fixpoint push_edges (unrouted : list nat) (es : list (nat * nat)) (rd : rdata) (n : nat) : rdata * nat :=
  match es with
  | [] => (rd, n)
  | (a, b) :: t => let '(rd', n') := push_all unrouted a b rd n in push_edges unrouted t rd' n'
  end.

(** _seems_valid_insertion, lines 129-152 *)
Definition seems_valid (i : insertion) (rd : rdata) (unrouted : list nat) : bool :=
  mem (in_cust i) unrouted && adjacent (in_after i) (in_before i) (r_route rd)
  && negb (exceeds C ceps (r_cap rd + d (in_cust i))).

(** The loop of lines 336-376 up to the call of the callback.  The first argument is the length of the heap.
    Outer [None]: the callback is out of fuel. *)
Inductive pops_result := Exhausted (rd : rdata) | Inserted (c : nat) (rd : rdata) (new_edges : list (nat * nat)).
Fixpoint pops (n : nat) (rd : rdata) (unrouted : list nat) : option pops_result :=
  match n, r_heap rd with
  | S n', e :: t =>
      let '(m, rest) := pop_min e t in
      let rd' := mkrd (r_route rd) (r_cost rd) (r_cap rd) rest in
      if seems_valid (en_ins m) rd' unrouted then
        match callback (en_ins m) rd' with
        | None => None
        | Some (Some (rd'', es)) => Some (Inserted (in_cust (en_ins m)) rd'' es)
        | Some None => pops n' rd' unrouted
        end
      else pops n' rd' unrouted
  | _, _ => Some (Exhausted rd)
  end.

(** ** The main loop, lines 313-403 *)
Record cstate := mkcs { c_open : list rdata; c_done : list rdata; c_unrouted : list nat;
                        c_seeds : list (list nat); c_turn : nat; c_tick : nat }.

(** Points at which an interrupt may arrive, with what the handler then sees. *)
Inductive cpoint := TurnBegins        (* lines 316-355 *)
                  | CustomerInserted  (* the route is changed, [unrouted] is not: 356-360 *)
                  | CustomerRemoved   (* after 361 *)
                  | RouteCompleted    (* after 385 *)
                  | SeedTaken         (* in 398, after line 87 *)
                  | RouteReplaced.    (* after 403 *)
Record snapshot := mksnap { sn_open : list rdata; sn_done : list rdata; sn_unrouted : list nat }.

Inductive cturn := Continue (st : cstate) | NoMoreSeeds.

(** Lines 316-403.  The StopIteration of line 395 and the IndexError of line 74 both are [NoMoreSeeds]. *)
Definition turn (st : cstate) : option (cturn * list (cpoint * snapshot)) :=
  let k := c_turn st in
  let rd0 := nth k (c_open st) (mkrd [] 0 0 []) in
  let '(rd1, t1) := match r_heap rd0 with
                    | [] => push_edges (c_unrouted st) (edges (r_route rd0)) rd0 (c_tick st)
                    | _ => (rd0, c_tick st)
                    end in
  match pops (length (r_heap rd1)) rd1 (c_unrouted st) with
  | None => None
  | Some res =>
      let '(rd2, unrouted, t2, pts) :=
        match res with
        | Exhausted rd => (rd, c_unrouted st, t1, [])
        | Inserted c rd es =>
            let u := del c (c_unrouted st) in
            let '(rd', t') := push_edges u es rd t1 in
            (rd', u, t', [(CustomerInserted, mksnap (set_nth k rd (c_open st)) (c_done st) (c_unrouted st));
                          (CustomerRemoved, mksnap (set_nth k rd (c_open st)) (c_done st) u)])
        end in
      let begins := (TurnBegins, mksnap (c_open st) (c_done st) (c_unrouted st)) in
      let opened := set_nth k rd2 (c_open st) in
      let next := if Nat.eqb (S k) (length (c_open st)) then 0%nat else S k in
      match r_heap rd2, unrouted with
      | [], _ :: _ =>
          let dn := c_done st ++ [rd2] in
          let completed := (RouteCompleted, mksnap opened dn unrouted) in
          match pick_seed (c_seeds st) unrouted with
          | None => Some (NoMoreSeeds, begins :: pts ++ [completed])
          | Some (chosen, seeds) =>
              let u := del_all chosen unrouted in
              let opened' := set_nth k (rd_new chosen D d) opened in
              Some (Continue (mkcs opened' dn u seeds next t2),
                    begins :: pts ++ [completed; (SeedTaken, mksnap opened dn u); (RouteReplaced, mksnap opened' dn u)])
          end
      | _, _ => Some (Continue (mkcs opened (c_done st) unrouted (c_seeds st) next t2), begins :: pts)
      end
  end.

Inductive coutcome := Solution (sol : list nat) | RanOutOfSeeds.

(** Outer [None]: out of fuel. *)
Fixpoint main_loop (fuel : nat) (st : cstate) : option (coutcome * list (cpoint * snapshot)) :=
  match c_unrouted st with
  | [] => Some (Solution ([0%nat] ++ export_solution (c_open st) ++ export_solution (c_done st)), [])
  | _ =>
      match fuel with
      | O => None
      | S fuel' =>
          match turn st with
          | None => None
          | Some (NoMoreSeeds, pts) => Some (RanOutOfSeeds, pts)
          | Some (Continue st', pts) =>
              match main_loop fuel' st' with
              | None => None
              | Some (o, pts') => Some (o, pts ++ pts')
              end
          end
      end
  end.

(** The initial routes, lines 307-308; [None]: IndexError *)
Fixpoint initial_routes (K : nat) (seeds : list (list nat)) (unrouted : list nat)
  : option (list rdata * list (list nat) * list nat) :=
  match K with
  | O => Some ([], seeds, unrouted)
  | S K' => match pick_seed seeds unrouted with
            | None => None
            | Some (chosen, seeds') =>
                match initial_routes K' seeds' (del_all chosen unrouted) with
                | None => None
                | Some (rds, seeds'', u) => Some (rd_new chosen D d :: rds, seeds'', u)
                end
            end
  end.

(** Lines 307-412: [seeds] is the stack of seed customers, top first. *)
Definition insertion_init (N K : nat) (seeds : list (list nat)) (fuel : nat)
  : option (coutcome * list (cpoint * snapshot)) :=
  match initial_routes K seeds (range 1 N) with
  | None => Some (RanOutOfSeeds, [])
  | Some (rds, seeds', u) => main_loop fuel (mkcs rds [] u seeds' 0 0)
  end.
End Insertion.

(** The handler, lines 404-409.  [order]: the order in which the set is iterated over. *)
Definition handler_sol (order : list nat -> list nat) (s : snapshot) : list nat :=
  let sol := [0%nat] ++ export_solution (sn_open s) ++ export_solution (sn_done s) in
  sol ++ tl (routes2sol_gen (map (fun n => Some [n]) (filter (fun n => negb (mem n sol)) (order (sn_unrouted s))))).

(** ** _try_insert_and_update, lines 154-173 *)
Definition insert_in (i : insertion) (rd : rdata) : list nat :=
  insert_between (in_after i) (in_before i) (in_cust i) (r_route rd).
Definition try_insert_and_update (seps : Z) (D : matrix) (L : limit) (minimize_K : bool) (i : insertion) (rd : rdata)
  : option (option (rdata * list (nat * nat))) :=
  let c := in_cust i in
  if negb minimize_K && (0 <? in_dl i - D 0%nat c - D c 0%nat) then Some None
  else if exceeds L seps (r_cost rd + in_dl i) then Some None
  else Some (Some (mkrd (insert_in i rd) (r_cost rd + in_dl i) (r_cap rd + in_dd i) (r_heap rd),
                   [(in_after i, c); (c, in_before i)])).

(** ** Seeds, lines 289-300, as a stack with the top first: the lists are sorted and taken from the end.
    Entries: (key, customers), compared lexicographically. *)
Record seed := mkseed { sd_key : Z; sd_key2 : Z; sd_a : nat; sd_b : nat }.
Definition seed_leb (x y : seed) : bool :=
  if sd_key x <? sd_key y then true else if sd_key y <? sd_key x then false else
  if sd_key2 x <? sd_key2 y then true else if sd_key2 y <? sd_key2 x then false else
  if Nat.ltb (sd_a x) (sd_a y) then true else if Nat.ltb (sd_a y) (sd_a x) then false else
  Nat.leb (sd_b x) (sd_b y).
(** descending *)
Fixpoint seed_insert (x : seed) (l : list seed) : list seed :=
  match l with
  | [] => [x]
  | y :: t => if seed_leb y x then x :: y :: t else y :: seed_insert x t
  end.
Definition seed_sort (l : list seed) : list seed := fold_right seed_insert [] l.
Definition seed_custs (x : seed) : list nat := [sd_a x; sd_b x].

Inductive init_method := Farthest | Closest | Strain.
(** The candidates (i,) of "farthest" and "closest" are written (i, i): [choose] drops repetitions. *)
Definition seed_stack (N : nat) (D : matrix) (strain : nat -> nat -> nat -> Z * Z) (m : init_method) : list (list nat) :=
  match m with
  | Farthest => map seed_custs (seed_sort (map (fun i => mkseed (D 0%nat i) 0 i i) (range 1 N)))
  | Closest => rev (map seed_custs (seed_sort (map (fun i => mkseed (D 0%nat i) 0 i i) (range 1 N))))
  | Strain => map seed_custs (seed_sort (flat_map (fun i => map (fun j =>
                mkseed (fst (strain 0%nat i j)) (- D i j) i j) (range i N)) (range 1 N)))
  end.

(** ** parametrized_insertion_criteria, lines 175-201, with lm = ln/den and mm = mn/den; both results
    times [den], which leaves the comparisons unchanged for den > 0. *)
Definition param_criteria (den ln mn : Z) (D : matrix) (i u j : nat) : Z * Z :=
  let mst := den * (D i u + D u j) - mn * D i j in
  (ln * D 0%nat u - mst, mst).

(** ** cheapest_insertion_init, lines 203-412, with the default insert callback *)
Definition cheapest_insertion_init (ceps seps : Z) (N : nat) (D : matrix) (d : demands) (C L : limit) (minimize_K : bool)
           (K : nat) (m : init_method) (strain : nat -> nat -> nat -> Z * Z) (ident : nat -> Z) (fuel : nat)
  : option (coutcome * list (cpoint * snapshot)) :=
  insertion_init ceps seps D d C L strain (try_insert_and_update seps D L minimize_K) ident N K
                 (seed_stack N D strain m) fuel.

(** ** get_pi_algorithm, lines 429-440: as many emerging routes as the sequential version used *)
Definition parallel_insertion_auto (ceps seps : Z) (N : nat) (D : matrix) (d : demands) (C L : limit) (minimize_K : bool)
           (ident ident' : nat -> Z) (fuel : nat) : option coutcome :=
  let strain := param_criteria 1 1 0 D in
  match cheapest_insertion_init ceps seps N D d C L minimize_K 1 Farthest strain ident fuel with
  | None => None
  | Some (RanOutOfSeeds, _) => Some RanOutOfSeeds
  | Some (Solution sol, _) =>
      let K := (count_occ Nat.eq_dec sol 0%nat - 1)%nat in
      match cheapest_insertion_init ceps seps N D d C L minimize_K K Farthest strain ident' fuel with
      | None => None
      | Some (o, _) => Some o
      end
  end.

(** ** mole_jameson_insertion.py, _try_insert_2opt_and_update, lines 53-126 *)
Definition try_insert_2opt (eps seps : Z) (fuel : nat) (D : matrix) (L : limit) (minimize_K : bool) (i : insertion) (rd : rdata)
  : option (option (rdata * list (nat * nat))) :=
  let c := in_cust i in
  let r1 := insert_in i rd in
  match repeat_op (fun r => do_2opt_move eps r D false None) fuel r1 (in_dl i) with
  | None => None
  | Some (r2, total_delta) =>
      let applied := match do_2opt_move eps r1 D false None with Some _ => true | None => false end in
      if negb minimize_K && (0 <? total_delta - D 0%nat c - D c 0%nat) then Some None
      else if exceeds L seps (r_cost rd + total_delta) then Some None
      else if applied
           then Some (Some (mkrd r2 (r_cost rd + total_delta) (r_cap rd + in_dd i) [], edges r2))
           else Some (Some (mkrd r1 (r_cost rd + total_delta) (r_cap rd + in_dd i) (r_heap rd),
                            [(in_after i, c); (c, in_before i)]))
  end.
