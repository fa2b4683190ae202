(** * Model of verypy/local_search/naive_implementations.py *)
From Verif Require Import Spec PyBase M_util M_intra.

(** What an operator returns, (new_sol, delta) or (None, None), or the exception it raises *)
Inductive naive_out := Found (sol : list nat) (delta : Z) | Nothing | NameError | IndexError | ValueError | NotImplemented.

Section Naive.
(** CAPACITY_EPSILON and COST_EPSILON *)
Variables ceps eps : Z.
Variable D : matrix.
Variable d : demands.
Variables C L : limit.
(** strategy==LSOPT.FIRST_ACCEPT *)
Variable first : bool.

(** _naive_constraint_check, lines 31-51.  [prev]: prev_node *)
Fixpoint constraint_check (sol : list nat) (prev : option nat) (c l : Z) : bool :=
  match sol with
  | [] => true
  | node :: sol' =>
      let c' := match truthy C with Some _ => if Nat.eqb node 0 then c else c + d node | None => c end in
      if negb (Nat.eqb node 0) && exceeds C ceps c' then false
      else
        let l' := match truthy L, prev with Some _, Some p => l + D p node | _, _ => l end in
        if match prev with Some _ => exceeds L eps l' | None => false end then false
        else if Nat.eqb node 0 then constraint_check sol' (Some node) 0 0
        else constraint_check sol' (Some node) c' l'
  end.
Definition naive_constraint_check (sol : list nat) : bool := constraint_check sol None 0 0.

(** [while solution[route_end]!=0: route_end+=1] (lines 74-76, 113-114), on what follows from [e]; [None]: IndexError.
    Also [e+solution[e:].index(0)] (line 201), with ValueError *)
Fixpoint next_depot (l : list nat) (e : nat) : option nat :=
  match l with
  | [] => None
  | x :: t => if Nat.eqb x 0 then Some e else next_depot t (S e)
  end.

(** [if best_sol: return best_sol, best_delta  else: return None, None].  The empty list is false. *)
Definition answer (s : option (list nat) * Z) : naive_out :=
  match s with
  | (Some (x :: l), b) => Found (x :: l) b
  | _ => Nothing
  end.

(** do_naive_2opt_move, lines 92-153.  The routes from [rs], [re] on: the body of the while loop of lines 110-147. *)
Definition reverse_part (sol : list nat) (a c : nat) : list nat := slice_to (a + 1) sol ++ rslice c a sol ++ slice_from (c + 1) sol.
Fixpoint opt2_routes (sol : list nat) (fuel rs re : nat) (s : option (list nat) * Z) : option (option (list nat) * Z) :=
  match fuel with
  | O => Some s
  | S fuel' =>
      if (re <? length sol)%nat then
        match next_depot (skipn re sol) re with
        | None => None
        | Some e =>
            let (s', found) :=
              for_break (range rs e) (fun a s =>
                for_break (range (a + 2) e) (fun c s =>
                  let ansatz := reverse_part sol a c in
                  try_move eps first (objf ansatz D - objf sol D) ansatz s) s) s in
            if found then Some s' else opt2_routes sol fuel' e (e + 1) s'
        end
      else Some s
  end.
Definition do_naive_2opt_move (sol : list nat) (best_delta : option Z) : naive_out :=
  match opt2_routes sol (length sol) 0 1 (None, start_delta best_delta) with
  | Some s => answer s
  | None => IndexError
  end.

(** do_naive_2optstar_move, lines 156-236.  Line 216 calls fast_constraint_check, which is not defined in the module: a
    reconnection that is better raises NameError, so that best_sol and best_delta never change.
    One reconnection: *)
Definition star_alt1 (sol : list nat) (a c : nat) (left right : option nat) : list nat :=
  match left, right with
  | Some lm, Some rm => slice_to (a + 1) sol ++ rslice c rm sol ++ slice lm (rm + 1) sol ++ rslice (lm - 1) a sol ++ slice_from (c + 1) sol
  | _, _ => slice_to (a + 1) sol ++ rslice c a sol ++ slice_from (c + 1) sol
  end.
Definition star_alt2 (sol : list nat) (a c lm rm nd : nat) : list nat :=
  slice_to (a + 1) sol ++ slice (c + 1) nd sol ++ slice lm (rm + 1) sol ++ rslice (lm - 1) a sol ++ rslice c rm sol ++ slice_from nd sol.
(** The loop of lines 174-227 from [c] on, with the depots met; [None]: the loop ends without exception *)
Fixpoint star_inner (sol : list nat) (best_delta : Z) (a : nat) (cs : list nat) (left right : option nat) : option naive_out :=
  match cs with
  | [] => None
  | c :: cs' =>
      let left' := if Nat.eqb (at_ sol c) 0 then match left with None => Some c | Some _ => left end else left in
      let right' := if Nat.eqb (at_ sol c) 0 then Some c else right in
      if objf (star_alt1 sol a c left' right') D - objf sol D + eps <? best_delta then Some NameError
      else match left', right' with
           | Some lm, Some rm =>
               match next_depot (skipn (c + 1) sol) (c + 1) with
               | None => Some ValueError
               | Some nd => if objf (star_alt2 sol a c lm rm nd) D - objf sol D + eps <? best_delta then Some NameError
                            else star_inner sol best_delta a cs' left' right'
               end
           | _, _ => star_inner sol best_delta a cs' left' right'
           end
  end.
Fixpoint star_outer (sol : list nat) (best_delta : Z) (as_ : list nat) : option naive_out :=
  match as_ with
  | [] => None
  | a :: as' =>
      let mid := if Nat.eqb (at_ sol (a + 1)) 0 then Some (a + 1)%nat else None in
      match star_inner sol best_delta a (range (a + 1) (length sol - 1)) mid mid with
      | Some e => Some e
      | None => star_outer sol best_delta as'
      end
  end.
Definition do_naive_2optstar_move (sol : list nat) (best_delta : option Z) : naive_out :=
  match star_outer sol (start_delta best_delta) (range 0 (length sol - 3)) with Some e => e | None => Nothing end.

(** do_naive_3optstar_move, lines 239-248: the rest is not reached *)
Definition do_naive_3optstar_move (sol : list nat) (best_delta : option Z) : naive_out := NotImplemented.

(** [if _naive_constraint_check(ansatz_sol,...)] followed by the acceptance test (lines 335-344, 403-416) *)
Definition try_checked (sol ansatz : list nat) (s : option (list nat) * Z) : (option (list nat) * Z) * bool :=
  if naive_constraint_check ansatz then try_move eps first (objf ansatz D - objf sol D) ansatz s else (s, false).

(** do_naive_1point_move, lines 311-352 *)
Definition insert_node (j n : nat) (l : list nat) : list nat := firstn j l ++ n :: skipn j l.
Definition do_naive_1point_move (sol : list nat) (best_delta : option Z) : naive_out :=
  answer (fst (for_break sol (fun n s =>
    if Nat.eqb n 0 then (s, false)
    else for_break (range 1 (length sol - 1)) (fun j s => try_checked sol (insert_node j n (remove_first n sol)) s) s)
    (None, start_delta best_delta))).

(** do_naive_2point_move, lines 371-424 *)
Definition swap_nodes (sol : list nat) (i j : nat) : list nat := set_nth j (at_ sol i) (set_nth i (at_ sol j) sol).
Definition do_naive_2point_move (sol : list nat) (best_delta : option Z) : naive_out :=
  answer (fst (for_break (range 0 (length sol)) (fun i s =>
    if Nat.eqb (at_ sol i) 0 then (s, false)
    else for_break (range 1 (length sol - 1)) (fun j s =>
      if Nat.eqb (at_ sol j) 0 then (s, false) else try_checked sol (swap_nodes sol i j) s) s)
    (None, start_delta best_delta))).

(** _apply_as_intra_route, lines 53-90.  [None]: IndexError *)
Fixpoint intra_routes (op : list nat -> option Z -> naive_out) (fuel rs re : nat) (ansatz : list nat) (total : Z) : option (list nat * Z) :=
  match fuel with
  | O => Some (ansatz, total)
  | S fuel' =>
      if (re <? length ansatz)%nat then
        match next_depot (skipn re ansatz) re with
        | None => None
        | Some e =>
            let (ansatz', total') :=
              match op (slice rs (e + 1) ansatz) None with
              | Found r' improvement =>
                  if improvement =? 0 then (ansatz, total)
                  else (slice_to rs ansatz ++ r' ++ slice_from (e + 1) ansatz, total + improvement)
              | _ => (ansatz, total)
              end in
            intra_routes op fuel' e (e + 1) ansatz' total'
        end
      else Some (ansatz, total)
  end.
Definition apply_as_intra_route (op : list nat -> option Z -> naive_out) (sol : list nat) (best_delta : option Z) : naive_out :=
  match intra_routes op (length sol) 0 1 sol 0 with
  | None => IndexError
  | Some (ansatz, total) => if total + eps <? start_delta best_delta then Found ansatz total else Nothing
  end.
(** Lines 355-369 and 427-439: best_delta is not passed on *)
Definition do_naive_relocate_move (sol : list nat) (best_delta : option Z) : naive_out := apply_as_intra_route do_naive_1point_move sol None.
Definition do_naive_exchange_move (sol : list nat) (best_delta : option Z) : naive_out := apply_as_intra_route do_naive_2point_move sol None.
End Naive.

(** The operators *)
Inductive naive_op := N2opt | N1point | NRelocate | N2point | NExchange | N2optstar | N3optstar.
Definition run_op (ceps eps : Z) (D : matrix) (d : demands) (C L : limit) (first : bool) (op : naive_op) (sol : list nat) (best_delta : option Z) : naive_out :=
  match op with
  | N2opt => do_naive_2opt_move eps D first sol best_delta
  | N1point => do_naive_1point_move ceps eps D d C L first sol best_delta
  | NRelocate => do_naive_relocate_move ceps eps D d C L first sol best_delta
  | N2point => do_naive_2point_move ceps eps D d C L first sol best_delta
  | NExchange => do_naive_exchange_move ceps eps D d C L first sol best_delta
  | N2optstar => do_naive_2optstar_move eps D sol best_delta
  | N3optstar => do_naive_3optstar_move sol best_delta
  end.

(** do_naive_local_search, lines 441-472; the messages are left out. *)
Inductive naive_end := SearchDone (sol : list nat) | SearchError (e : naive_out).
Section Search.
Variable op_of : naive_op -> list nat -> naive_out.
Variable max_iterations : option nat.
(** The for loop: the solution, iteration and improved, or an exception *)
Fixpoint ops_round (ops : list naive_op) (sol : list nat) (iteration : nat) (improved : bool) : (list nat * nat * bool) + naive_out :=
  match ops with
  | [] => inl (sol, iteration, improved)
  | op :: ops' =>
      match op_of op sol with
      | Nothing => ops_round ops' sol iteration improved
      | Found new_sol _ =>
          if match max_iterations with Some (S m) => Nat.eqb (S iteration) (S m) | _ => false end then inl (new_sol, S iteration, true)
          else ops_round ops' new_sol (S iteration) true
      | e => inr e
      end
  end.
Fixpoint naive_loop (ls_ops : list naive_op) (fuel : nat) (sol : list nat) (iteration : nat) : option naive_end :=
  match fuel with
  | O => None
  | S fuel' =>
      match ops_round ls_ops sol iteration false with
      | inr e => Some (SearchError e)
      | inl (sol', iteration', improved) => if improved then naive_loop ls_ops fuel' sol' iteration' else Some (SearchDone sol')
      end
  end.
End Search.
Definition do_naive_local_search (ceps eps : Z) (ls_ops : list naive_op) (sol : list nat) (D : matrix) (d : demands) (C L : limit) (first : bool)
    (max_iterations : option nat) (fuel : nat) : option naive_end :=
  naive_loop (fun op s => run_op ceps eps D d C L first op s None) max_iterations ls_ops fuel sol 0.
