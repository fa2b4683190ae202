(** * Model of the algorithm wrappers of verypy/classic_heuristics/nearest_neighbor.py

    [stops k] tells at which point the run with [k] emerging routes is interrupted, as an index
    into the points of that run; interrupts between the runs are left out. *)
From Verif Require Import Spec Spec_nn PyBase M_util M_psavings M_nn.

Inductive wrapped :=
| WReturns (sol : option (list nat))
| WNotImplemented                      (* NotImplementedError *)
| WInterrupted (sol : list nat)        (* KeyboardInterrupt(sol) *)
| WRaises (e : exn_kind)               (* an exception of nearest_neighbor_init *)
| WBroken.                             (* None has no routes: AttributeError or TypeError *)

(** One call nearest_neighbor_init(D, d, C, L, emerging_route_count=k) with the default arguments
    of lines 119-124, possibly interrupted (lines 309-329) *)
Definition nn_call ceps seps N D d C L (k : nat) (stop : option nat) (fuel : nat) : option wrapped :=
  match nearest_neighbor_init ceps seps N D d C L k NNfarthest false [] fuel with
  | None => None
  | Some (out, pts) =>
      Some (match match stop with Some i => nth_error pts i | None => None end with
            | Some p => WInterrupted (nn_interrupted N p)
            | None => match out with NNok sol => WReturns sol | NNraise e => WRaises e end
            end)
  end.

(** get_snn_algorithm, lines 338-343; also the wrapper with a given number of routes, lines 381-387 *)
Definition snn_call ceps seps N D d C L (k : nat) (stops : nat -> option nat) (minimize_K : bool) (fuel : nat) : option wrapped :=
  if minimize_K then Some WNotImplemented else nn_call ceps seps N D d C L k (stops k) fuel.

(** sol.count(0)-1 *)
Definition routes_in (sol : list nat) : nat := (count_occ Nat.eq_dec sol 0%nat - 1)%nat.

(** The loop of lines 368-377 *)
Fixpoint pnn_tries ceps seps N D d C L (stops : nat -> option nat) (minimize_K : bool) (fuel : nat) (ks : list nat)
         (best_sol : list nat) (best_f : Z) (best_K : nat) : option wrapped :=
  match ks with
  | [] => Some (WReturns (Some best_sol))
  | k :: ks' =>
      match nn_call ceps seps N D d C L k (stops k) fuel with
      | None => None
      | Some (WReturns None) => Some WBroken
      | Some (WReturns (Some sol0)) =>
          let sol := without_empty_routes sol0 in
          let sol_f := objf sol D in
          let sol_K := routes_in sol in
          if is_better_sol (Some best_f) (Some best_K) (Some sol_f) (Some sol_K) minimize_K
          then pnn_tries ceps seps N D d C L stops minimize_K fuel ks' sol sol_f sol_K
          else pnn_tries ceps seps N D d C L stops minimize_K fuel ks' best_sol best_f best_K
      | Some w => Some w
      end
  end.

(** get_pnn_algorithm("auto"), lines 351-379 *)
Definition pnn_call ceps seps N D d C L (stops : nat -> option nat) (single minimize_K : bool) (fuel : nat) : option wrapped :=
  if minimize_K then Some WNotImplemented
  else match nn_call ceps seps N D d C L 1 (stops 1%nat) fuel with
       | None => None
       | Some (WReturns sol_snn) =>
           if single then Some (WReturns sol_snn)
           else match sol_snn with
                | None => Some WBroken
                | Some sol =>
                    let auto_route_count := routes_in sol in
                    pnn_tries ceps seps N D d C L stops minimize_K fuel (range 2 (auto_route_count + 1)) sol (objf sol D) auto_route_count
                end
       | Some w => Some w
       end.
