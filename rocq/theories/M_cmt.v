(** * Model of Christofides, Mingozzi and Toth's two phase heuristic

    verypy/classic_heuristics/cmt_2phase.py.  [f] is solve_tsp(D, .).  The multipliers are fractions
    (numerator, denominator); all scores are taken times the denominator, which changes no
    comparison.  What shuffle does is a parameter.  unrouted is an OrderedSet; its remove is [dict_del]. *)
From Verif Require Import Spec Spec_rfcs PyBase M_util M_cvrp_ops.

(** phase1_seed_selection_method, lines 56-70 and 503-510 *)
Inductive seeding := FirstSeed | FarthestSeed | ClosestSeed | BiggestSeed.

(** np.argmax / np.argmin over a list, lines 60, 64, 69, 285 and 305: the first of the best *)
Definition first_best (key : nat -> Z) (l : list nat) : nat :=
  match l with [] => 0%nat | x :: t => fold_left (fun b y => if key b <? key y then y else b) t x end.

(** sort of pairs (score, node), lines 116 and 334 (there reverse=True: descending) *)
Definition pair_lt (a b : Z * nat) : bool := (fst a <? fst b) || ((fst a =? fst b) && Nat.ltb (snd a) (snd b)).
(** Insertion into a sorted list *)
Fixpoint pair_insert (lt : Z * nat -> Z * nat -> bool) (a : Z * nat) (l : list (Z * nat)) : list (Z * nat) :=
  match l with [] => [a] | b :: t => if lt b a then b :: pair_insert lt a t else a :: l end.
Definition pair_sort (lt : Z * nat -> Z * nat -> bool) (l : list (Z * nat)) : list (Z * nat) := fold_right (pair_insert lt) [] l.

(** RouteState, line 193: the route begins with the depot and has no depot at its end *)
Record rstate := mkrs { rs_route : list nat; rs_demand : Z; rs_cost : Z; rs_updated : bool }.

(** How an insertion ends: the continue of line 132, of 150, or line 161 *)
Inductive tried := Overload | TooLong | Put (st : rstate).

Section Cmt.
Variables (ceps seps : Z) (N : nat) (D : matrix) (d : demands) (C L : limit) (f : tsp).

(** _first_seed, _farthest_seed, _closest_seed and _biggest_seed, lines 56-70 *)
Definition seed_of (m : seeding) (unrouted : list nat) : nat :=
  match m with
  | FirstSeed => hd 0%nat unrouted
  | FarthestSeed => first_best (fun i => D 0%nat i) unrouted
  | ClosestSeed => first_best (fun i => - D 0%nat i) unrouted
  | BiggestSeed => first_best d unrouted
  end.

(** Lines 101-104 and 225-228 *)
Definition new_route (k : nat) : rstate :=
  mkrs [0%nat; k] (match truthy C with Some _ => d k | None => 0 end) (D 0%nat k + D k 0%nat) true.

(** Lines 128-160 and 346-383: inserting one customer *)
Definition try_insert (st : rstate) (i : nat) : tried :=
  if exceeds C ceps (rs_demand st + d i) then Overload
  else
    let e := last (rs_route st) 0%nat in
    let ub := rs_cost st - D e 0%nat + D e i + D i 0%nat in
    let dem := match truthy C with Some _ => rs_demand st + d i | None => rs_demand st end in
    if exceeds L seps ub then
      let '(nr, nc) := f (rs_route st ++ [i]) in
      if exceeds L seps nc then TooLong else Put (mkrs (removelast nr) dem nc true)
    else Put (mkrs (rs_route st ++ [i]) dem ub false).

(** Lines 168-170 and 199-201: a route that was only extended is optimized in the end *)
Definition close_route (st : rstate) : rstate :=
  if rs_updated st then st
  else let '(nr, nc) := f (rs_route st) in mkrs (removelast nr) (rs_demand st) nc false.

(** ** _phase_one, lines 72-191 *)

(** Lines 113-116 *)
Definition p1_candidates (lam : Z * Z) (k : nat) (unrouted : list nat) : list nat :=
  map snd (pair_sort pair_lt (map (fun i => (snd lam * D 0%nat i + fst lam * D i k, i)) unrouted)).
(** Lines 117-161, with the values unrouted has had *)
Fixpoint p1_fill (cands : list nat) (st : rstate) (unrouted : list nat) : rstate * list nat * list (list nat) :=
  match cands with
  | [] => (st, unrouted, [])
  | i :: rest =>
      match try_insert st i with
      | Put st' => let '(st2, un, pts) := p1_fill rest st' (dict_del i unrouted) in (st2, un, dict_del i unrouted :: pts)
      | _ => p1_fill rest st unrouted
      end
  end.

(** What the phase leaves: route_seeds, sol without the depot at its end, and total_cost; and the values of
    (sol, unrouted) an interrupt can find. *)
Record p1out := mkp1 { p1_seeds : list nat; p1_sol : list nat; p1_cost : Z; p1_points : list (list nat * list nat) }.

(** The loop of lines 94-180; [k] is at least the number of unrouted customers *)
Fixpoint p1_loop (m : seeding) (lam : Z * Z) (k : nat) (seeds sol : list nat) (total : Z) (unrouted : list nat) : p1out :=
  match k, unrouted with
  | S k', _ :: _ =>
      let s := seed_of m unrouted in
      let un1 := dict_del s unrouted in
      let '(st, un2, pts) := p1_fill (p1_candidates lam s un1) (new_route s) un1 in
      let st' := close_route st in
      let out := p1_loop m lam k' (seeds ++ [s]) (sol ++ rs_route st') (total + rs_cost st') un2 in
      mkp1 (p1_seeds out) (p1_sol out) (p1_cost out)
           ((sol, unrouted) :: (sol, un1) :: map (pair sol) pts ++ p1_points out)
  | _, _ => mkp1 seeds sol total [(sol, unrouted)]
  end.
(** [order]: the customers as shuffled, lines 82-86.  Line 185 adds the depot to the solution. *)
Definition phase_one (m : seeding) (lam : Z * Z) (order : list nat) : p1out := p1_loop m lam (length order) [] [] 0 order.

(** Lines 181-183: what the exception carries; routes2sol of a generator *)
Definition p1_interrupted (p : list nat * list nat) : list nat :=
  fst p ++ routes2sol_gen (map (fun n => Some [n]) (filter (fun n => negb (existsb (Nat.eqb n) (fst p))) (snd p))).

(** ** _phase_two, lines 209-414 *)

(** _routestates2solution, lines 194-207 *)
Definition routestates2solution (routes : list rstate) : list nat * Z :=
  (flat_map (fun st => rs_route (close_route st)) routes ++ [0%nat], sumZ (map (fun st => rs_cost (close_route st)) routes)).

(** The variables of lines 220-249; insertion_infeasible is the list of the pairs (route, customer) that are True *)
Record p2st := mkp2 { p2_routes : list rstate; p2_infeasible : list (nat * nat); p2_unrouted : list nat; p2_idxs : list nat;
                      p2_nth : nat; p2_made : bool; p2_first : bool; p2_pass : nat }.

Section Two.
Variables (mu : Z * Z) (seeds : list nat) (most_associated : bool) (repeated : option nat).
(** The order of the routes in each pass, lines 255-258, and np.argpartition(column, kth), line 297 *)
Variables (shuffled : nat -> list nat) (argpartition : nat -> list Z -> list nat).

(** Lines 241-243: eps of route number k for customer n *)
Definition eps_of (k n : nat) : Z :=
  snd mu * D 0%nat n + fst mu * D n (nth k seeds 0%nat) - snd mu * D 0%nat (nth k seeds 0%nat).

(** Lines 254-272; [None]: break *)
Definition p2_refill (st : p2st) : option p2st :=
  match p2_idxs st with
  | _ :: _ => Some st
  | [] =>
      let fresh := fun n => mkp2 (p2_routes st) (p2_infeasible st) (p2_unrouted st) (shuffled (p2_pass st)) n false false (S (p2_pass st)) in
      if p2_first st then Some (fresh (p2_nth st))
      else
        match repeated with
        | None => None
        | Some m =>
            let n := if p2_made st then p2_nth st else S (p2_nth st) in
            if Nat.ltb m n then None else Some (fresh n)
        end
  end.

(** np.where(column==x), lines 299-301, for one column *)
Definition position (x : nat) (l : list nat) : nat :=
  (fix go (i : nat) (l : list nat) := match l with [] => 0%nat | y :: t => if Nat.eqb x y then i else go (S i) t end) 0%nat l.

(** Lines 284-301: to which of the remaining routes, as a position, a customer is associated *)
Definition r_star (idxs : list nat) (n_th : nat) (n : nat) : nat :=
  if Nat.eqb n_th 1 || Nat.eqb (length idxs) 1
  then first_best (fun p => - eps_of (nth p idxs 0%nat) n) (range 0 (length idxs))
  else position (n_th - 1) (argpartition (n_th - 1)%nat (map (fun k => eps_of k n) idxs)).

(** Lines 303-311: the position of the chosen route.  np.unique lists only the positions that occur; the others have
    the count zero. *)
Definition chosen_position (idxs : list nat) (stars : list nat) : nat :=
  if most_associated then first_best (fun p => Z.of_nat (count_occ Nat.eq_dec stars p)) (range 0 (length idxs)) else 0%nat.

(** Lines 317-334: the associated customers, best first *)
Definition p2_candidates (k : nat) (rest : list nat) (assoc : list nat) : list nat :=
  let sigma := fun n =>
    match rest with
    | [] => - eps_of k n
    | r :: t => fold_left (fun b q => Z.min b (eps_of q n)) t (eps_of r n) - eps_of k n
    end in
  map snd (pair_sort (fun a b => pair_lt b a) (map (fun n => (sigma n, n)) assoc)).

(** Lines 341-385, with the values unrouted_nodes has had *)
Fixpoint p2_fill (k : nat) (cands : list nat) (st : rstate) (infeasible : list (nat * nat)) (unrouted : list nat) (made : bool)
  : rstate * list (nat * nat) * list nat * bool * list (list nat) :=
  match cands with
  | [] => (st, infeasible, unrouted, made, [])
  | n :: rest =>
      if negb (exceeds C ceps (rs_demand st + d n)) && (match truthy L with Some _ => true | None => false end) &&
         existsb (fun q => Nat.eqb (fst q) k && Nat.eqb (snd q) n) infeasible
      then p2_fill k rest st infeasible unrouted made
      else
        match try_insert st n with
        | Overload => p2_fill k rest st infeasible unrouted made
        | TooLong => p2_fill k rest st ((k, n) :: infeasible) unrouted made
        | Put st' =>
            let '(st2, inf, un, mk, pts) := p2_fill k rest st' infeasible (dict_del n unrouted) true in
            (st2, inf, un, mk, dict_del n unrouted :: pts)
        end
  end.

(** One round of lines 254-397 for a state with unrouted customers, with the values of (routes, unrouted_nodes) on
    the way.  [inr]: break. *)
Definition p2_round (st0 : p2st) : (p2st * list (list rstate * list nat)) + p2st :=
  match p2_refill st0 with
  | None => inr st0
  | Some st =>
      if negb (Nat.eqb (p2_nth st) 1) && negb (Nat.eqb (length (p2_idxs st)) 1) && Nat.ltb (length (p2_idxs st)) (p2_nth st)
      then inl (mkp2 (p2_routes st) (p2_infeasible st) (p2_unrouted st) [] (p2_nth st) (p2_made st) (p2_first st) (p2_pass st), [])
      else
        let stars := map (r_star (p2_idxs st) (p2_nth st)) (p2_unrouted st) in
        let p := chosen_position (p2_idxs st) stars in
        let k := nth p (p2_idxs st) 0%nat in
        let rest := firstn p (p2_idxs st) ++ skipn (S p) (p2_idxs st) in
        let assoc := map snd (filter (fun q => Nat.eqb (fst q) p) (combine stars (p2_unrouted st))) in
        let '(r, inf, un, made, pts) :=
          p2_fill k (p2_candidates k rest assoc) (nth k (p2_routes st) (mkrs [] 0 0 true)) (p2_infeasible st) (p2_unrouted st) (p2_made st) in
        let routes := if made then set_nth k r (p2_routes st) else p2_routes st in
        inl (mkp2 routes inf un rest (p2_nth st) made (p2_first st) (p2_pass st), map (pair (p2_routes st)) pts)
  end.

(** The loop of lines 252-397, with the values of (routes, unrouted_nodes) an interrupt can find.  [None]: out of fuel. *)
Fixpoint p2_loop (fuel : nat) (st : p2st) : option (p2st * list (list rstate * list nat)) :=
  match fuel with
  | O => None
  | S fuel' =>
      let here := (p2_routes st, p2_unrouted st) in
      match p2_unrouted st with
      | [] => Some (st, [here])
      | _ :: _ =>
          match p2_round st with
          | inr st' => Some (st', [here])
          | inl (st', pts) => option_map (fun o => (fst o, here :: pts ++ snd o)) (p2_loop fuel' st')
          end
      end
  end.

(** Lines 213-249; [order]: the customers as shuffled *)
Definition p2_start (order : list nat) : p2st :=
  mkp2 (map new_route seeds) [] (filter (fun n => negb (existsb (Nat.eqb n) seeds)) order) [] 1 false true 0.

(** The solution with its cost, or None (lines 405-414), and the points.  Outer [None]: out of fuel. *)
Definition phase_two (order : list nat) (fuel : nat) : option (option (list nat * Z) * list (list rstate * list nat)) :=
  option_map (fun o =>
    (match p2_unrouted (fst o) with [] => Some (routestates2solution (p2_routes (fst o))) | _ => None end, snd o))
    (p2_loop fuel (p2_start order)).

(** Lines 398-402: what the exception carries *)
Definition p2_interrupted (p : list rstate * list nat) : list nat :=
  let sol := fst (routestates2solution (fst p)) in
  removelast sol ++ routes2sol_gen (map (fun n => Some [n]) (filter (fun n => negb (existsb (Nat.eqb n) sol)) (snd p))).
End Two.

(** ** cmt_2phase_init, lines 417-579 *)

(** A solution with its cost and number of routes, or nothing; best_sol, best_f and best_K *)
Definition rated := option (list nat * Z * nat).
(** The cost of a rated solution, best_f *)
Definition rated_f (r : rated) : option Z := option_map (fun x => snd (fst x)) r.
(** Its number of routes, best_K *)
Definition rated_K (r : rated) : option nat := option_map snd r.
(** Lines 554-559 *)
Definition better_of (minimize_K : bool) (old new : rated) : bool := is_better_sol (rated_f old) (rated_K old) (rated_f new) (rated_K new) minimize_K.

(** Lines 553-567.  An interrupted phase has the cost and number inf or the ones of its solution.  A phase 2 without a solution has the cost None and the number 0; it is never better. *)
Definition pick (minimize_K : bool) (best p1 p2 : rated) : rated :=
  let p1_better := better_of minimize_K p2 p1 in
  if p1_better then (if better_of minimize_K best p1 then p1 else best)
  else (if better_of minimize_K best p2 then p2 else best).

(** phase2_repeated_association_with_n_routes, lines 482-494 *)
Inductive association := Once | Times (n : nat) | TimesK.

(** The parameters of cmt_2phase_init, lines 417-422 *)
Section Init.
Variables (minimize_K : bool) (lam mu : Z * Z) (m : seeding) (most_associated : bool) (assoc : association).
(** The random choices of each attempt: the customers in phase 1 and in phase 2, and the routes in each pass *)
Variables (order1 order2 : nat -> list nat) (shuffled : nat -> nat -> nat -> list nat) (argpartition : nat -> list Z -> list nat).

(** Lines 525-527 *)
Definition rated1 (out : p1out) : rated := Some (p1_sol out ++ [0%nat], p1_cost out, length (p1_seeds out)).
(** Lines 541-550: an interrupted phase, rated *)
Definition rated_interrupted (sol : list nat) : rated :=
  let s := without_empty_routes sol in Some (s, objf s D, (count_occ Nat.eq_dec s 0%nat - 1)%nat).

(** One attempt, lines 524-537, number t; [random]: rr is not None. *)
Definition attempt1 (random : bool) (t : nat) : p1out := phase_one m lam (if random then order1 t else range 1 N).
(** Phase 2, lines 531-537 *)
Definition attempt2 (random : bool) (t : nat) (seeds : list nat) (fuel : nat) :=
  let rep := match assoc with Once => None | Times n => Some n | TimesK => Some (length seeds) end in
  let shuf := fun pass => if random then shuffled t pass (length seeds) else range 0 (length seeds) in
  phase_two mu seeds most_associated rep shuf argpartition (if random then order2 t else range 1 N) fuel.
(** Lines 405-414 and 535 *)
Definition rated2 (seeds : list nat) (s : option (list nat * Z)) : rated := option_map (fun x => (fst x, snd x, length seeds)) s.

(** The loop, lines 519-576, with the values an interrupt hands over: before phase 1 has begun (the best so far), in
    phase 1, between the phases or when phase 2 is done, and in phase 2.  [rr]: retries left.  [None]: out of fuel. *)
Fixpoint attempts (random : bool) (rr t : nat) (fuel : nat) (best : rated) : option (rated * list rated) :=
  match rr with
  | O => Some (best, [])
  | S rr' =>
      let out := attempt1 random t in
      let ints1 := best :: map (fun p => pick minimize_K best (rated_interrupted (p1_interrupted p)) None) (p1_points out) in
      match attempt2 random t (p1_seeds out) fuel with
      | None => None
      | Some (s2, pts) =>
          let ints2 := pick minimize_K best (rated1 out) None :: map (fun p => pick minimize_K best (rated1 out) (rated_interrupted (p2_interrupted p))) pts in
          let best' := pick minimize_K best (rated1 out) (rated2 (p1_seeds out) s2) in
          match s2, random with
          | None, true =>
              match attempts random rr' (S t) fuel best' with
              | None => None
              | Some (b, ints) => Some (b, ints1 ++ ints2 ++ ints)
              end
          | _, _ => Some (best', ints1 ++ ints2)
          end
      end
  end.

(** [retries]: number_of_randomized_retries.  The solution and what the interrupts hand over. *)
Definition cmt_2phase_init (retries : option nat) (fuel : nat) : option (option (list nat) * list (option (list nat))) :=
  let r := match retries with None => attempts false 1 0 fuel None | Some n => attempts true n 0 fuel None end in
  option_map (fun o => (option_map (fun x => fst (fst x)) (fst o), map (option_map (fun x => fst (fst x))) (snd o))) r.
End Init.
End Cmt.
