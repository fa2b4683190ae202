(** * Model of interrupts (Ctrl-C) in the savings variants that run parallel savings repeatedly

    gaskell_savings.py, paessens_savings.py and suppression_savings.py of
    verypy/classic_heuristics.  At most one KeyboardInterrupt arrives in each run. *)
From Verif Require Import Spec PyBase M_util M_routedata M_driver M_psavings M_savfam.

(** Where in a run the interrupt arrives. *)
Inductive stop :=
| In_savings (k : nat)  (* inside the try block of parallel_savings_init, parallel_savings.py:97-177, at the k-th of its points *)
| Before_savings        (* before that try block, lines 89-96 *)
| After_savings         (* after it, line 182, or later in the caller's own try block *)
| In_search.            (* in the local search or in without_empty_routes, paessens_savings.py:109-113 *)

(** What a run leaves behind: [sol], which may be [None], and whether [interrupted] was set.
    [None]: another exception. *)
Definition run_end : Type := option (list nat) * bool.

(** The call of parallel savings under try and except KeyboardInterrupt, gaskell_savings.py:93-100,
    suppression_savings.py:129-140.  Parallel savings catches the interrupt inside its try block
    and raises one that carries its routes; any other interrupt carries no solution and is
    dropped.  A point past the last one is never reached: the run completes. *)
Definition savings_run ceps seps N D d C L minimize_K (savings : list saving) (s : option stop) : option run_end :=
  let completed := option_map (fun sol => (Some sol, false)) (ps_sol ceps seps N D d C L minimize_K savings) in
  match s with
  | Some (In_savings k) =>
      match ps_points ceps seps N D d C L minimize_K savings with
      | None => None
      | Some pts =>
          match nth_error pts k with
          | Some p => option_map (fun sol => (Some sol, true)) (interrupted_sol p)
          | None => completed
          end
      end
  | Some Before_savings | Some After_savings => Some (None, false)
  | Some In_search | None => completed
  end.

(** One run of paessens_savings.py, lines 107-119.  do_local_search does not catch interrupts:
    one that arrives there leaves [sol] as parallel savings returned it. *)
Definition paessens_stopped_run seps ceps N D d C L minimize_K (do_3opt : bool) (fuel : nat) (gf : Z * Z) (s : option stop) : option run_end :=
  let savings := paessens_list N D (fst gf) (snd gf) in
  match s with
  | Some (In_savings k) =>
      match ps_points ceps seps N D d C L minimize_K savings with
      | None => None
      | Some pts =>
          match nth_error pts k with
          | Some p => option_map (fun sol => (Some sol, true)) (interrupted_sol p)
          | None => option_map (fun sol => (Some sol, false)) (paessens_run seps ceps N D d C L minimize_K do_3opt fuel gf)
          end
      end
  | Some Before_savings | Some After_savings => Some (None, false)
  | Some In_search => option_map (fun sol => (Some sol, false)) (ps_sol ceps seps N D d C L minimize_K savings)
  | None => option_map (fun sol => (Some sol, false)) (paessens_run seps ceps N D d C L minimize_K do_3opt fuel gf)
  end.

(** best_sol, best_f, best_K (and best_params): [None] before the first run; the cost and the
    number of routes are infinite when the solution is [None].  gaskell_savings.py:101-107,
    paessens_savings.py:120-127, suppression_savings.py:141-151. *)
Definition best_state (A : Type) : Type := option (A * option (list nat * Z * nat)).
Definition rate (D : matrix) (sol : option (list nat)) : option (list nat * Z * nat) :=
  match sol with
  | None | Some [] => None
  | Some s => Some (s, objf s D, (count_occ Nat.eq_dec s 0%nat - 1)%nat)
  end.
Definition better {A} (minimize_K : bool) (best : best_state A) (new : option (list nat * Z * nat)) : bool :=
  match best with
  | None => true
  | Some (_, b) =>
      match b, new with
      | _, None => false
      | None, Some _ => true
      | Some (_, bf, bK), Some (_, sf, sK) => is_better_sol (Some bf) (Some bK) (Some sf) (Some sK) minimize_K
      end
  end.
Definition keep_best {A} (D : matrix) minimize_K (best : best_state A) (p : A) (sol : option (list nat)) : best_state A :=
  let new := rate D sol in
  if better minimize_K best new then Some (p, new) else best.
Definition best_sol {A} (best : best_state A) : option (list nat) :=
  match best with
  | Some (_, Some (s, _, _)) => Some s
  | _ => None
  end.

(** How a call ends: it returns a value, which may be None, or it raises KeyboardInterrupt with a
    value, which may be None. *)
Inductive call_end :=
| Returns (sol : option (list nat))
| Interrupted (sol : option (list nat)).

(** The loop over the runs, gaskell_savings.py:91-113, paessens_savings.py:99-130: it goes on to
    the next run ([inl]) or raises KeyboardInterrupt with the best solution ([inr]).  [t] counts
    the runs, [stops t] is the interrupt in run t, if there is one. *)
Fixpoint stopped_runs {A} (D : matrix) minimize_K (run : A -> option stop -> option run_end) (stops : nat -> option stop)
    (t : nat) (l : list A) (best : best_state A) : option (best_state A + option (list nat)) :=
  match l with
  | [] => Some (inl best)
  | p :: l' =>
      match run p (stops t) with
      | None => None
      | Some (sol, interrupted) =>
          let best' := keep_best D minimize_K best p sol in
          if interrupted then Some (inr (best_sol best'))
          else stopped_runs D minimize_K run stops (S t) l' best'
      end
  end.
Definition end_of {A} (x : best_state A + option (list nat)) : call_end :=
  match x with inl b => Returns (best_sol b) | inr s => Interrupted s end.

(** gaskell_savings_init, gaskell_savings.py:58-115 *)
Definition gaskell_stopped ceps seps N D d C L minimize_K (m : gaskell_method) (stops : nat -> option stop) : option call_end :=
  option_map end_of
    (stopped_runs D minimize_K (savings_run ceps seps N D d C L minimize_K) stops 0 (gaskell_functions N D m) None).

(** paessens_savings_init, paessens_savings.py:56-141.  After the fourth run of "M4" best_params
    is unpacked; it is set by then. *)
Definition paessens_stopped seps ceps N D d C L minimize_K (s : paessens_strategy) do_3opt fuel (stops : nat -> option stop) : option call_end :=
  let runs := stopped_runs D minimize_K (paessens_stopped_run seps ceps N D d C L minimize_K do_3opt fuel) stops in
  match s with
  | M1 | Given _ => option_map end_of (runs 0%nat (base_parameters s) None)
  | M4 =>
      match runs 0%nat m4_parameters None with
      | None | Some (inl None) => None
      | Some (inr sol) => Some (Interrupted sol)
      | Some (inl (Some (p, b))) => option_map end_of (runs 4%nat (m4_finetune p) (Some (p, b)))
      end
  end.

(** suppression_savings_init, suppression_savings.py:127-156.  The savings function, which updates
    the suppressed merges and the cache, is called in the try block of parallel savings; it has
    run to its end at all points of [ps_points] ([At_start] also stands for an interrupt in it: the
    call then ends and its updates do not matter) and has not run when the interrupt came before. *)
Fixpoint suppression_stopped_loop ceps seps N D d C L minimize_K (stops : nat -> option stop) (t n : nat) sup cache
    (best : best_state unit) : option call_end :=
  match n with
  | O => Some (Returns (best_sol best))
  | S n' =>
      match stops t with
      | Some Before_savings =>
          suppression_stopped_loop ceps seps N D d C L minimize_K stops (S t) n' sup cache (keep_best D minimize_K best tt None)
      | s =>
          match suppression_function N D sup cache with
          | None => None
          | Some (cache', sup') =>
              match savings_run ceps seps N D d C L minimize_K cache' s with
              | None => None
              | Some (sol, interrupted) =>
                  let best' := keep_best D minimize_K best tt sol in
                  if interrupted then Some (Interrupted (best_sol best'))
                  else suppression_stopped_loop ceps seps N D d C L minimize_K stops (S t) n' sup' cache' best'
              end
          end
      end
  end.
Definition suppression_stopped ceps seps N D d C L minimize_K (Lprime : option nat) (stops : nat -> option stop) : option call_end :=
  suppression_stopped_loop ceps seps N D d C L minimize_K stops 0 (suppression_count N Lprime) [] [] None.
