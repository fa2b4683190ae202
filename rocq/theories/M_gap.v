(** * Model of verypy/classic_heuristics/gapvrp.py

    The heuristic of Fisher and Jaikumar: seed points, an assignment of the customers to the seeds by an integer
    program, and a tour for each set of customers.  Parameters: the seed points of [seed_f], only through their
    distances to the depot and the customers, for each number of routes and each trial; the answers of Gurobi,
    which may differ from call to call; the TSP solver.  Values of binary variables are taken to be exact.
    Logging and debug assertions are left out.  One tolerance stands for C_EPS and S_EPS (config.py: both 1e-10).
    The multipliers of the length constraints (lines 59-61) are in hundredths. *)
From Verif Require Import Spec PyBase M_util M_psavings.
Local Open Scope Z_scope.

(** ** _solve_gap, lines 84-211 *)

(** The integer program of lines 117-163: for each customer and route the cost; demands and capacity; the length
    limit, and what the costs are multiplied by in the length constraints. *)
Record gap := mkgap { gp_N : nat; gp_K : nat; gp_cost : nat -> nat -> Z; gp_d : demands; gp_C : limit; gp_L : limit; gp_mult : Z }.
(** Lines 117-124; [D_s]: the matrix of the depot's distances followed by the distances of the seeds *)
Definition build_gap (N : nat) (D_s : nat -> nat -> Z) (d : demands) (C : limit) (K : nat) (L : limit) (mult : Z) : gap :=
  mkgap N K (fun i k => D_s 0%nat i + D_s k i - D_s k 0%nat) d C L mult.
(** Gurobi's answers: the values of the variables for customers and routes, or another status *)
Inductive gap_status := GOptimal (Y : nat -> nat -> bool) | GInfeasible | GTimeLimit | GInterrupted | GOther.
(** Lines 64-82 *)
Definition to_assignments (Y : nat -> nat -> bool) (N K : nat) : list (list nat) :=
  map (fun k => filter (fun i => Y i k) (seq 1 (N - 1))) (seq 0 K).
Inductive gap_answer := Assigned (a : list (list nat)) | NoAnswer | GurobiError | Interrupt.
(** Lines 181-211; [answer p false], [answer p true]: the answers for the program and for the one in which
    feasRelax has made the length constraints soft *)
Definition solve_gap (answer : gap -> bool -> gap_status) (p : gap) : gap_answer :=
  match answer p false with
  | GOptimal Y => Assigned (to_assignments Y (gp_N p) (gp_K p))
  | GInfeasible =>
      if is_set (gp_L p) then
        match answer p true with
        | GOptimal Y => Assigned (to_assignments Y (gp_N p) (gp_K p))
        | GTimeLimit => GurobiError
        | GInterrupted => Interrupt
        | _ => NoAnswer
        end
      else NoAnswer
  | GTimeLimit => GurobiError
  | GInterrupted => Interrupt
  | GOther => NoAnswer
  end.

(** ** The tours, lines 805-855: [None]: not solved *)
Section Tours.
Variables (eps : Z) (N : nat) (d : demands) (C L : limit) (f : list nat -> list nat * Z).
(** Lines 813-841, with the solution, its cost and number of routes so far, and the nodes served *)
Fixpoint tours (a : list (list nat)) (sol : list nat) (sol_f : Z) (sol_K : nat) (served : list nat) : option (list nat * Z * nat * list nat) :=
  match a with
  | [] => Some (sol, sol_f, sol_K, served)
  | [] :: t => tours t sol sol_f sol_K served
  | nodes :: t =>
      let '(route, route_l) := f (0%nat :: nodes) in
      if is_set L && exceeds C eps (totald route d) then None
      else if exceeds L eps route_l then None
      else tours t (sol ++ slice_from 1 route) (sol_f + route_l) (sol_K + 1) (served ++ nodes)
  end.
(** Lines 805-855; the set of line 811 as a list *)
Definition evaluate (a : list (list nat)) : option (list nat * Z * nat) :=
  match a with
  | [] => None
  | _ => match tours a [0%nat] 0 0 [0%nat] with
         | Some (sol, sol_f, sol_K, served) =>
             if is_set L && (length (nodup Nat.eq_dec served) <? N)%nat then None else Some (sol, sol_f, sol_K)
         | None => None
         end
  end.
End Tours.

(** ** gap_init *)

(** Lines 722-731: a lower bound for the number of routes from the length limit; [tour]: the length of a tour
    through the customers; [edges]: the sorted distances from the depot.  [None]: still looking *)
Fixpoint fit_K (L tour : Z) (edges : list Z) (fuel K : nat) : option nat :=
  match fuel with
  | O => None
  | S fuel' => if tour + sumZ (firstn (2 * K) edges) <=? Z.of_nat K * L then Some K else fit_K L tour edges fuel' (S K)
  end.
Definition ceil_div (a b : Z) : Z := - ((- a) / b).
Inductive start := StartAt (startK maxK : nat) | StartRaises.
(** Lines 712-734; [edges] as sorted by line 726.  [None]: still looking *)
Definition start_K (N : nat) (D : matrix) (d : demands) (C L : limit) (f : list nat -> list nat * Z) (edges : list Z) (K : option Z) (fuel : nat) : option start :=
  match truthy K with
  | Some k => Some (StartAt (Z.to_nat k) (Z.to_nat k))
  | None =>
      match truthy C with
      | Some c => Some (StartAt (Z.to_nat (ceil_div (sumZ (map d (seq 0 N))) c)) (N - 1))
      | None =>
          match truthy L with
          | Some l =>
              let tour := snd (f (seq 1 (N - 1))) in
              option_map (fun k => StartAt k (N - 1)) (fit_K l tour edges fuel (Z.to_nat (ceil_div tour l)))
          | None => Some StartRaises
          end
      end
  end.

(** The variables of the search, and (not in the code) all solutions found so far, and the number of calls
    of _solve_gap *)
Record gst := mkgst { g_K : nat; g_inc : nat; g_trial : nat; g_tries : nat; g_best : option (list nat * Z * nat);
                      g_improved : bool; g_found : list (list nat * Z * nat); g_calls : nat }.
(** What comes out, with all solutions found *)
Inductive gap_out := GapReturns (sol : option (list nat)) (found : list (list nat * Z * nat)) | GapInterrupted (sol : option (list nat)) (found : list (list nat * Z * nat)) | GapRaises.
Definition sol_of (best : option (list nat * Z * nat)) : option (list nat) := option_map (fun b => fst (fst b)) best.

Section Search.
Variables (eps : Z) (N : nat) (D : matrix) (d : demands) (C L : limit) (f : list nat -> list nat * Z).
(** The distances of the seeds to the nodes for a number of routes and a trial; [None]: [seed_f] raises an exception *)
Variable seeds : nat -> nat -> option (nat -> nat -> Z).
Variable half_st : Z.
(** The answers of each call *)
Variable gurobi : nat -> gap -> bool -> gap_status.
Variables (minimize_K find_optimal_seeds use_adaptive increase_K : bool) (maxK maxKinc : nat).

(** Lines 744-748 *)
Definition adaptive : bool := is_set L && use_adaptive.
Definition multiplier (tries : nat) : Z := if adaptive then 85 * (Z.of_nat tries + 1) else 100.
(** Lines 768-776: the depot's row over the rows of the seeds, with half of the service time for the customers *)
Definition stacked (sd : nat -> nat -> Z) : nat -> nat -> Z :=
  fun k i => match k with O => D 0%nat i | S k' => match i with O => sd k' i | _ => sd k' i + half_st end end.

(** Lines 856-909: what follows an attempt: the number of tries, the temporary increase of K, and whether the next
    seed is to be taken; [None]: the exception is raised again *)
Definition after_error (K inc tries : nat) : option (nat * nat * bool) :=
  if adaptive && (tries <? 3)%nat then Some (S tries, inc, false)
  else if increase_K && (K + inc + 1 <=? maxKinc)%nat then Some (if adaptive && (3 <=? tries)%nat then 0%nat else tries, S inc, false)
  else if find_optimal_seeds then Some (tries, inc, true)
  else None.
Definition after_attempt (solved : bool) (K inc tries : nat) : nat * nat * bool :=
  let more := negb solved && increase_K && (K + inc + 1 <=? maxKinc)%nat in
  if adaptive then
    if solved || (3 <=? tries)%nat then if more then (0%nat, S inc, false) else (0%nat, inc, true)
    else (S tries, inc, false)
  else if more then (tries, S inc, false) else (tries, inc, true).

(** Lines 934-948: after the seeds of this K *)
Definition next_K (st : gst) : gst + gap_out :=
  let stop := match g_best st with Some _ => minimize_K || negb (g_improved st) | None => false end in
  if stop || (maxK <=? g_K st)%nat then inr (GapReturns (sol_of (g_best st)) (g_found st))
  else inl (mkgst (S (g_K st)) (g_inc st) 0 (g_tries st) (g_best st) false (g_found st) (g_calls st)).
(** Lines 911-932: the best so far, then the next seed *)
Definition close_turn (st : gst) (sol : option (list nat * Z * nat)) (tries inc : nat) (take_next : bool) : gst + gap_out :=
  let best := match sol with Some s => best_step minimize_K (g_best st) s | None => g_best st end in
  let better := match sol with
                | Some (_, sf, sK) => is_better_sol (option_map (fun b => snd (fst b)) (g_best st)) (option_map snd (g_best st)) (Some sf) (Some sK) minimize_K
                | None => false end in
  let found := match sol with Some s => g_found st ++ [s] | None => g_found st end in
  let trial := if take_next then S (g_trial st) else g_trial st in
  let inc' := if take_next || (trial =? N)%nat then 0%nat else inc in
  let st' := mkgst (g_K st) inc' trial tries best (g_improved st || better) found (S (g_calls st)) in
  if (take_next && negb find_optimal_seeds) || (trial =? N)%nat then next_K st' else inl st'.
(** One turn of the loop of lines 753-932 *)
Definition gap_turn (st : gst) : gst + gap_out :=
  let K := (g_K st + g_inc st)%nat in
  match seeds K (g_trial st) with
  | None => inr GapRaises
  | Some sd =>
      match solve_gap (gurobi (g_calls st)) (build_gap N (stacked sd) d C K L (multiplier (g_tries st))) with
      | Interrupt => inr (GapInterrupted (sol_of (g_best st)) (g_found st))
      | GurobiError => match after_error (g_K st) (g_inc st) (g_tries st) with
                       | None => inr GapRaises
                       | Some (tries, inc, next) => close_turn st None tries inc next
                       end
      | NoAnswer => let '(tries, inc, next) := after_attempt false (g_K st) (g_inc st) (g_tries st) in close_turn st None tries inc next
      | Assigned a =>
          let sol := evaluate eps N d C L f a in
          let '(tries, inc, next) := after_attempt (match sol with Some _ => true | None => false end) (g_K st) (g_inc st) (g_tries st) in
          close_turn st sol tries inc next
      end
  end.
(** The state after some turns, or what came out before *)
Fixpoint gap_turns (n : nat) (st : gst) : gst + gap_out :=
  match n with
  | O => inl st
  | S n' => match gap_turn st with inl st' => gap_turns n' st' | r => r end
  end.
End Search.

(** Lines 736-742 and 751: the state the search starts in *)
Definition gap_start (startK : nat) : gst := mkgst startK 0 0 0 None false [] 0.
(** Line 742; 1.1 is exact *)
Definition max_K_increase (startK : nat) : nat := Nat.max (startK + 1) (startK * 11 / 10).
(** The whole of gap_init, lines 599-946.  [None]: still running *)
Definition gap_init (eps : Z) (N : nat) (D : matrix) (d : demands) (C L : limit) (f : list nat -> list nat * Z) (edges : list Z)
           (seeds : nat -> nat -> option (nat -> nat -> Z)) (half_st : Z) (gurobi : nat -> gap -> bool -> gap_status)
           (K : option Z) (minimize_K find_optimal_seeds use_adaptive increase_K : bool) (fuel : nat) : option gap_out :=
  match start_K N D d C L f edges K fuel with
  | None => None
  | Some StartRaises => Some GapRaises
  | Some (StartAt startK maxK) =>
      if (maxK <? startK)%nat then Some (GapReturns None [])
      else match gap_turns eps N D d C L f seeds half_st gurobi minimize_K find_optimal_seeds use_adaptive increase_K maxK (max_K_increase startK) fuel (gap_start startK) with
           | inl _ => None
           | inr r => Some r
           end
  end.

(** ** _sweep_seed_points, lines 214-378: how the customers' cones are grouped

    Weights are multiplied by K, so that the target is the sum of the demands (line 229).  Rays, arcs and the
    positions of the seeds are left out. *)
(** Lines 258-342 process the nodes of these positions of the sweep; the last one only ends the cone before it. *)
Definition cone_order (sweep : list nat) (trial : nat) : list nat := removelast (skipn trial sweep ++ firstn (trial + 1) sweep).
(** Lines 268-334 for one node: the weight and the nodes of the group so far, and the groups that are full *)
Definition cone_step (eps target : Z) (w : nat -> Z) (s : Z * list nat * list (Z * list nat)) (n : nat) : Z * list nat * list (Z * list nat) :=
  let '(cum, nodes, groups) := s in
  let wt := if w n =? 0 then 0 else Z.min (w n) (target - cum) in
  let cum' := cum + wt in
  if target - cum' <? eps then
    if wt <? w n then (w n - wt, [n], groups ++ [(cum', nodes ++ [n])]) else (0, [], groups ++ [(cum', nodes ++ [n])])
  else (cum', nodes ++ [n], groups).
Definition cone_groups (eps : Z) (d : demands) (K : nat) (target : Z) (order : list nat) : list (Z * list nat) :=
  snd (fold_left (cone_step eps target (fun n => Z.of_nat K * d n)) order (0, [], [])).
