(** * Model of the savings variants that call parallel savings

    gaskell_savings.py, paessens_savings.py and suppression_savings.py of
    verypy/classic_heuristics.  Runs without an interrupt only.  Exceptions are [None]. *)
From Verif Require Import Spec PyBase M_util M_routedata M_driver M_psavings.

(** The pairs i < j of customers with a value each, sorted: the common shape of the savings
    functions (the preallocated list is filled in order). *)
Definition savings_list (N : nat) (D : matrix) (value : nat -> nat -> Z) : list saving :=
  sort_reverse (flat_map (fun i => map (fun j => (value i j, - D i j, i, j)) (range (i + 1) N)) (range 1 N)).

(** gaskell_lambda_savings_function, gaskell_savings.py:31-44.  np.average(D[0:]) is the mean of
    all entries; the values are multiplied by N*N, which keeps their order. *)
Definition matrix_sum (N : nat) (D : matrix) : Z :=
  sumZ (map (fun i => sumZ (map (fun j => D i j) (range 0 N))) (range 0 N)).
Definition gaskell_lambda (N : nat) (D : matrix) : list saving :=
  savings_list N D (fun i j =>
    (D i 0%nat + D 0%nat j - D i j) *
    (matrix_sum N D + Z.of_nat N * Z.of_nat N * (Z.abs (D 0%nat i - D 0%nat j) - D i j))).
(** gaskell_pi_savings_function, lines 46-56 *)
Definition gaskell_pi (N : nat) (D : matrix) : list saving :=
  savings_list N D (fun i j => D i 0%nat + D 0%nat j - 2 * D i j).

(** A candidate solution with its cost and number of routes, gaskell_savings.py:104-106,
    paessens_savings.py:121-123, suppression_savings.py:143-145; the payload also carries the
    parameters of the run. *)
Definition candidate {A} (D : matrix) (params : A) (sol : list nat) : (A * list nat) * Z * nat :=
  ((params, sol), objf sol D, (count_occ Nat.eq_dec sol 0%nat - 1)%nat).

Fixpoint all_some {A} (l : list (option A)) : option (list A) :=
  match l with
  | [] => Some []
  | None :: _ => None
  | Some x :: t => option_map (cons x) (all_some t)
  end.

(** parallel_savings_init that returned a solution *)
Definition ps_sol ceps seps N D d C L minimize_K savings : option (list nat) :=
  match parallel_savings_init ceps seps N D d C L minimize_K savings with
  | Some (Some s) => Some s
  | _ => None
  end.

(** gaskell_savings_init, gaskell_savings.py:58-115 *)
Inductive gaskell_method := Both | Lambda | Pi.
Definition gaskell_functions (N : nat) (D : matrix) (m : gaskell_method) : list (list saving) :=
  match m with
  | Both => [gaskell_lambda N D; gaskell_pi N D]
  | Lambda => [gaskell_lambda N D]
  | Pi => [gaskell_pi N D]
  end.
Definition gaskell_savings_init ceps seps N D d C L minimize_K (m : gaskell_method) : option (option (list nat)) :=
  option_map (fun sols => option_map (fun c => snd (fst (fst c))) (best_of minimize_K (map (candidate D tt) sols)))
    (all_some (map (ps_sol ceps seps N D d C L minimize_K) (gaskell_functions N D m))).

(** paessens_savings_function, paessens_savings.py:37-54.  The multipliers are in tenths. *)
Definition paessens_list (N : nat) (D : matrix) (g f : Z) : list saving :=
  savings_list N D (fun i j => 10 * (D i 0%nat + D 0%nat j) - g * D i j + f * Z.abs (D i 0%nat - D 0%nat j)).

(** One run, lines 100-120: parallel savings, 3-opt on the routes (best accept, the default
    iteration strategy), empty routes removed.  [fuel] bounds the local search. *)
Definition paessens_run seps ceps N D d C L minimize_K (do_3opt : bool) (fuel : nat) (gf : Z * Z) : option (list nat) :=
  match ps_sol ceps seps N D d C L minimize_K (paessens_list N D (fst gf) (snd gf)) with
  | None => None
  | Some sol =>
      match (if do_3opt then do_local_search seps (library seps D d C L) [1%nat] sol D d false IterAll None fuel else Some sol) with
      | None => None
      | Some sol' => Some (without_empty_routes sol')
      end
  end.
Definition paessens_runs seps ceps N D d C L minimize_K do_3opt fuel (ps : list (Z * Z)) :=
  option_map (map (fun x => candidate D (fst x) (snd x)))
    (all_some (map (fun gf => option_map (fun s => (gf, s)) (paessens_run seps ceps N D d C L minimize_K do_3opt fuel gf)) ps)).

(** The strategies, lines 84-91, in tenths: np.linspace(0.8, 2.0, num=13) and (0.0, 1.0, num=11);
    the product runs over the second factor faster. *)
Inductive paessens_strategy := M1 | M4 | Given (ps : list (Z * Z)).
Definition m1_parameters : list (Z * Z) :=
  flat_map (fun g => map (fun f => (Z.of_nat g, Z.of_nat f)) (range 0 11)) (range 8 21).
Definition m4_parameters : list (Z * Z) := [(10, 1); (10, 5); (14, 0); (14, 5)].
Definition m4_finetune (gf : Z * Z) : list (Z * Z) :=
  let (g, f) := gf in [(g - 1, f); (g + 1, f); (g, f - 1); (g, f + 1)].

(** the parameters a strategy starts with *)
Definition base_parameters (s : paessens_strategy) : list (Z * Z) :=
  match s with M1 => m1_parameters | M4 => m4_parameters | Given ps => ps end.

(** paessens_savings_init, lines 56-141.  For "M4" four more parameters are appended after the
    fourth run. *)
Definition paessens_savings_init seps ceps N D d C L minimize_K (s : paessens_strategy) do_3opt fuel : option (option (list nat)) :=
  let runs := paessens_runs seps ceps N D d C L minimize_K do_3opt fuel in
  let result cands := Some (option_map (fun c => snd (fst (fst c))) (best_of minimize_K cands)) in
  match s with
  | M1 => match runs m1_parameters with Some c => result c | None => None end
  | Given ps => match runs ps with Some c => result c | None => None end
  | M4 =>
      match runs m4_parameters with
      | None => None
      | Some c4 =>
          match best_of minimize_K c4 with
          | None => None                                        (* best_params is None *)
          | Some b =>
              match runs (m4_finetune (fst (fst (fst b)))) with
              | None => None
              | Some c8 => result (c4 ++ c8)
              end
          end
      end
  end.

(** supression_savings_function, suppression_savings.py:36-87: the savings list (which is the
    cache, shared by all calls) and the new set of suppressed pairs. *)
Definition suppressed_pair (sup : list (nat * nat)) (sv : saving) : bool :=
  existsb (fun p => Nat.eqb (fst p) (snd (fst sv)) && Nat.eqb (snd p) (snd sv)) sup.
Definition fresh_cache (N : nat) (D : matrix) (sup : list (nat * nat)) : list saving :=
  savings_list N D (fun i j =>
    if existsb (fun p => Nat.eqb (fst p) i && Nat.eqb (snd p) j) sup then 0
    else Z.max 0 (D i 0%nat + D 0%nat j - D i j)).
(** the while loop, lines 70-75; [None]: IndexError *)
Fixpoint zero_suppressed (sup : list (nat * nat)) (cache : list saving) : option (list saving) :=
  match cache with
  | [] => None
  | sv :: t =>
      if suppressed_pair sup sv then
        let '(_, x, i, j) := sv in option_map (cons (0, x, i, j)) (zero_suppressed sup t)
      else Some cache
  end.
Definition suppression_function (N : nat) (D : matrix) (sup : list (nat * nat)) (cache : list saving)
  : option (list saving * list (nat * nat)) :=
  let cache' :=
    match cache with
    | [] => Some (fresh_cache N D sup)
    | sv :: _ =>
        if suppressed_pair sup sv then option_map sort_reverse (zero_suppressed sup cache) else Some cache
    end in
  match cache' with
  | Some ((s, x, i, j) :: t) => Some ((s, x, i, j) :: t, (i, j) :: sup)
  | _ => None
  end.

(** suppression_savings_init, lines 89-156; [n] is the number of iterations left, [cands] the
    solutions so far. *)
Fixpoint suppression_loop ceps seps N D d C L minimize_K (n : nat) sup cache cands : option (list (unit * list nat * Z * nat)) :=
  match n with
  | O => Some cands
  | S n' =>
      match suppression_function N D sup cache with
      | None => None
      | Some (cache', sup') =>
          match ps_sol ceps seps N D d C L minimize_K cache' with
          | None => None
          | Some sol => suppression_loop ceps seps N D d C L minimize_K n' sup' cache' (cands ++ [candidate D tt sol])
          end
      end
  end.
Definition suppression_count (N : nat) (Lprime : option nat) : nat :=
  let n := (N - 1)%nat in
  Nat.min (match Lprime with None => n / 7 + 5 | Some l => l end)%nat ((n * n - n) / 2)%nat.
Definition suppression_savings_init ceps seps N D d C L minimize_K (Lprime : option nat) : option (option (list nat)) :=
  match suppression_loop ceps seps N D d C L minimize_K (suppression_count N Lprime) [] [] [] with
  | None => None
  | Some cands => Some (option_map (fun c => snd (fst (fst c))) (best_of minimize_K cands))
  end.
