(** * Model of verypy/classic_heuristics/mole_jameson_insertion.py (the insertion callback is in M_cins.v) *)
From Verif Require Import Spec PyBase M_util M_routedata M_intra M_inter M_driver M_psavings M_cins.

(** min(routes, key=demand) and routes.remove(min_rd), lines 151-152: the first route of least demand *)
Fixpoint take_min (rd : routedata) (l : list routedata) : routedata * list routedata :=
  match l with
  | [] => (rd, [])
  | x :: t => let '(m, rest) := take_min x t in if odem rd <=? odem m then (rd, x :: t) else (m, rd :: rest)
  end.

(** ** _refine_solution, lines 136-185.  do_local_search is called with the default iteration strategy.
    Outer [None]: out of fuel; [Raised]: ValueError from min of nothing. *)
Inductive refined := Refined (sol : list nat) | Raised.
Fixpoint refine_solution (eps : Z) (D : matrix) (d : demands) (C L : limit) (minimize_K : bool) (fuel_ls fuel : nat) (sol : list nat)
  : option refined :=
  match fuel with
  | O => None
  | S fuel' =>
      let sol1 := without_empty_routes sol in
      let sol2 := if minimize_K then sol1 else sol1 ++ [0%nat] in
      match do_local_search eps (library eps D d C L) [4; 0]%nat sol2 D d false IterAll None fuel_ls with
      | None => None
      | Some sol3 =>
          let sol4 := without_empty_routes sol3 in
          match from_solution sol4 D d with
          | [] => Some Raised
          | rd :: rds =>
              let '(min_rd, rest) := take_min rd rds in
              let routes := if minimize_K then rest else rest ++ [empty_rd] in
              match do_redistribute_move eps min_rd routes D d C L true None 0 with
              | Some (rds', delta) =>
                  if minimize_K || (delta <? 0)
                  then refine_solution eps D d C L minimize_K fuel_ls fuel' (to_solution rds')
                  else Some (Refined sol4)
              | None => Some (Refined sol4)
              end
          end
      end
  end.

(** ** The strain criteria, lines 219-249: lm and mm in quarters, how routes are begun *)
Inductive criterion := ProximityRanking | MinStrain | ClarkeWright | Gaskell | AugmentedMinStrain | AllCriteria.
Definition configurations (c : criterion) : list (Z * Z * init_method) :=
  let proximity := [(0, 0, Farthest)] in
  let gaskell := [(5, 1, Strain); (6, 2, Strain); (7, 3, Strain); (8, 4, Strain)] in
  let augmented := [(0, 4, Farthest); (2, 4, Farthest); (4, 4, Farthest); (6, 4, Farthest)] in
  match c with
  | ProximityRanking => proximity
  | MinStrain => [(0, 4, Farthest)]
  | ClarkeWright => [(8, 4, Strain)]
  | Gaskell => gaskell
  | AugmentedMinStrain => augmented ++ [(8, 4, Strain)]
  | AllCriteria => proximity ++ gaskell ++ augmented
  end.

Section MJ.
Variable eps : Z.
Variable N : nat.
Variable D : matrix.
Variable d : demands.
Variables C L : limit.
Variable minimize_K : bool.
(** identities of the insertions of each run *)
Variable ident : Z * Z * init_method -> nat -> Z.

(** The insertion phase of one configuration, lines 260-264, and all of it, lines 260-267 *)
Definition mj_insertion (fuel : nat) (cfg : Z * Z * init_method) : option (coutcome * list (cpoint * snapshot)) :=
  let '(ln, mn, m) := cfg in
  let strain := param_criteria 4 ln mn D in
  insertion_init eps eps D d C L strain (try_insert_2opt eps eps fuel D L false) (ident cfg) N 1 (seed_stack N D strain m) fuel.

Inductive mj_one := OneSol (sol : list nat) | OneRaised.
Definition mj_run (fuel : nat) (cfg : Z * Z * init_method) : option mj_one :=
  match mj_insertion fuel cfg with
  | None => None
  | Some (RanOutOfSeeds, _) => Some OneRaised
  | Some (Solution sol, _) =>
      match refine_solution eps D d C L minimize_K fuel fuel sol with
      | None => None
      | Some Raised => Some OneRaised
      | Some (Refined sol') => Some (OneSol (without_empty_routes sol'))
      end
  end.

(** ** Interrupts while the callback works, mole_jameson_insertion.py:55-92: the customer is in the route, which is
    neither 2-optimised nor checked against L.  [attempts] are these routes for the loop modelled by [pops]. *)
Definition in_callback (i : insertion) (rd : rdata) : rdata := mkrd (insert_in i rd) (r_cost rd) (r_cap rd) (r_heap rd).
Fixpoint attempts (callback : insertion -> rdata -> option (option (rdata * list (nat * nat)))) (n : nat) (rd : rdata) (unrouted : list nat) : list rdata :=
  match n, r_heap rd with
  | S n', e :: t =>
      let '(m, rest) := pop_min e t in
      let rd' := mkrd (r_route rd) (r_cost rd) (r_cap rd) rest in
      if seems_valid eps d C (en_ins m) rd' unrouted then
        in_callback (en_ins m) rd' :: match callback (en_ins m) rd' with Some None => attempts callback n' rd' unrouted | _ => [] end
      else attempts callback n' rd' unrouted
  | _, _ => []
  end.
(** The snapshots in a turn that begins with [s] (there is one open route) and with [tick] insertions made so far *)
Definition turn_windows (fuel : nat) (cfg : Z * Z * init_method) (tick : nat) (s : snapshot) : list snapshot :=
  let '(ln, mn, m) := cfg in
  match sn_open s with
  | [rd0] =>
      let rd1 := match r_heap rd0 with
                 | [] => fst (push_edges eps eps D d C L (param_criteria 4 ln mn D) (ident cfg) (sn_unrouted s) (edges (r_route rd0)) rd0 tick)
                 | _ => rd0
                 end in
      map (fun rd => mksnap [rd] (sn_done s) (sn_unrouted s))
          (attempts (try_insert_2opt eps eps fuel D L false) (length (r_heap rd1)) rd1 (sn_unrouted s))
  | _ => []
  end.

(** ** The choice of the best, lines 252-286.  What one configuration yields: *)
Inductive mj_event :=
| Finished (sol : list nat)            (* no interrupt *)
| WithSolution (sol : list nat)        (* interrupted in the main loop of the insertion *)
| Bare (sol : option (list nat)).      (* interrupted elsewhere; [sol] is the value of the variable sol *)
(** Incumbent: [None] best_f is None; [Some None] best_sol is None, best_f and best_K infinite *)
Definition mj_better (best : option (option (list nat))) (cand : option (list nat)) : option (option (list nat)) :=
  match best, cand with
  | None, _ => Some cand
  | Some None, Some _ => Some cand
  | Some (Some b), Some s =>
      if is_better_sol (Some (objf b D)) (Some (count_occ Nat.eq_dec b 0%nat - 1)%nat) (Some (objf s D)) (Some (count_occ Nat.eq_dec s 0%nat - 1)%nat) minimize_K
      then Some cand else best
  | _, None => best
  end.
(** Returned, or raised with KeyboardInterrupt *)
Inductive mj_end := Returns (sol : option (list nat)) | Interrupts (sol : option (list nat)).
Fixpoint mj_choose (best : option (option (list nat))) (evs : list mj_event) : mj_end :=
  match evs with
  | [] => Returns (match best with Some b => b | None => None end)
  | Finished s :: t => mj_choose (mj_better best (Some s)) t
  | WithSolution s :: _ => Interrupts (match mj_better best (Some s) with Some b => b | None => None end)
  | Bare s :: t => mj_choose (mj_better best s) t
  end.

(** mole_jameson_insertion_init, lines 187-286, without interrupts; inner [None]: IndexError or ValueError *)
Fixpoint mj_runs (fuel : nat) (cfgs : list (Z * Z * init_method)) : option (option (list (list nat))) :=
  match cfgs with
  | [] => Some (Some [])
  | cfg :: t =>
      match mj_run fuel cfg with
      | None => None
      | Some OneRaised => Some None
      | Some (OneSol s) =>
          match mj_runs fuel t with
          | None => None
          | Some None => Some None
          | Some (Some ss) => Some (Some (s :: ss))
          end
      end
  end.
Definition mole_jameson_insertion_init (c : criterion) (fuel : nat) : option (option mj_end) :=
  match mj_runs fuel (configurations c) with
  | None => None
  | Some None => Some None
  | Some (Some ss) => Some (Some (mj_choose None (map Finished ss)))
  end.
End MJ.
