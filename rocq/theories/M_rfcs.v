(** * Model of verypy/classic_heuristics/rfcs.py

    The TSP solvers are parameters: deterministic functions from a list of nodes to a tour and its
    cost.  np.inf is [None].  Logging and sol_K, sol_f (only logged) are left out. *)
From Verif Require Import Spec Spec_rfcs PyBase M_util M_psavings.

(** ** Costs of the sequences, lines 67-111 *)

(** Lines 72-74 and 102-104: the next index on the tour *)
Definition rf_next (gtl i : nat) : nat := if Nat.eqb (S i) gtl then 0%nat else S i.

(** The loop of lines 79-106 for [u_idx]: the entries (v_idx, cost) written; at most [n] rounds. *)
Fixpoint rf_row (ceps seps : Z) (d : demands) (C L : limit) (gt : list nat) (gtl : nat) (const : Z) (f : tsp)
         (u n v : nat) (cum : Z) (route : list nat) : list (nat * Z) :=
  match n with
  | O => []
  | S n' =>
      let x := nth v gt 0%nat in
      if exceeds C ceps (cum + d x) then []
      else
        let '(route', cost) := f (removelast route ++ [x]) in
        if exceeds L seps cost then []
        else (v, cost + const) ::
             (if Nat.eqb (rf_next gtl v) u then []
              else rf_row ceps seps d C L gt gtl const f u n' (rf_next gtl v) (if is_set C then cum + d x else cum) route')
  end.

Definition fw := ((nat -> nat -> option Z) * (nat -> nat -> nat))%type.
Definition upd2 {A} (g : nat -> nat -> A) (i j : nat) (x : A) : nat -> nat -> A :=
  fun a b => if Nat.eqb a i && Nat.eqb b j then x else g a b.
Definition fw_set (m : fw) (u : nat) (e : nat * Z) : fw :=
  (upd2 (fst m) u (fst e) (Some (snd e)), upd2 (snd m) u (fst e) (fst e)).

(** Lines 62-63: np.full((N,N), np.inf), np.zeros((N,N)) *)
Definition fw_empty : fw := (fun _ _ => None, fun _ _ => 0%nat).

(** All the entries written, in order *)
Definition rf_entries ceps seps d C L gt gtl const f : list (nat * (nat * Z)) :=
  flat_map (fun u => map (pair u) (rf_row ceps seps d C L gt gtl const f u gtl (rf_next gtl u) 0 [0%nat; 0%nat])) (range 0 gtl).
Definition rf_matrix (es : list (nat * (nat * Z))) : fw := fold_left (fun m e => fw_set m (fst e) (snd e)) es fw_empty.

(** ** Lines 119-124; the loop over k is the innermost one. *)
Definition fw_step (i j k : nat) (m : fw) : fw :=
  match fst m i k, fst m k j with
  | Some x, Some y =>
      let v := x + y in
      if match fst m i j with Some z => v <? z | None => true end
      then (upd2 (fst m) i j (Some v), upd2 (snd m) i j (snd m i k)) else m
  | _, _ => m
  end.
Definition floyd (N : nat) (m : fw) : fw :=
  fold_left (fun m i => fold_left (fun m j => fold_left (fun m k => fw_step i j k m) (range 0 N) m) (range 0 N) m) (range 0 N) m.

(** np.argmin(sequence_D.diagonal()), line 128: the first of the smallest *)
Definition argmin_step (m : fw) (b i : nat) : nat :=
  match fst m i i, fst m b b with
  | Some x, Some y => if x <? y then i else b
  | Some _, None => i
  | None, _ => b
  end.
Definition argmin_diag (N : nat) (m : fw) : nat := fold_left (argmin_step m) (range 1 N) 0%nat.

(** ** The routes, lines 129-166 *)

(** Lines 143-152: the route of the customers behind u_idx up to v_idx; at most [n] rounds. *)
Fixpoint rf_route (interrupted : bool) (gt : list nat) (gtl : nat) (f : tsp) (n u v : nat) (route : list nat) : option (list nat) :=
  if Nat.eqb (length route) 2 || negb (Nat.eqb u v)
  then match n with
       | O => None
       | S n' =>
           let r1 := removelast route ++ [nth (rf_next gtl u) gt 0%nat] in
           let r2 := if interrupted then r1 ++ [0%nat] else fst (f r1) in
           rf_route interrupted gt gtl f n' (rf_next gtl u) v r2
       end
  else Some route.

(** The loop of lines 135-166 *)
Fixpoint rf_routes (interrupted : bool) (gt : list nat) (gtl : nat) (f g : tsp) (m : fw) (b n u v : nat) (sol : list nat) : option (list nat) :=
  match n with
  | O => None
  | S n' =>
      match rf_route interrupted gt gtl f n u v [0%nat; 0%nat] with
      | None => None
      | Some route =>
          let route' := if interrupted then route else fst (g route) in
          let sol' := sol ++ tl route' in
          if Nat.eqb v b then Some sol' else rf_routes interrupted gt gtl f g m b n' v (snd m v b) sol'
      end
  end.

(** Lines 56-59 *)
Definition rf_gtl (gt : list nat) : nat :=
  if Nat.eqb (hd 0%nat gt) (last gt 0%nat) then (length gt - 1)%nat else length gt.

(** Lines 57-163 of _partition_to_routes_with_cost_matrix.  [stop = Some s]: an interrupt after the
    [s]-th entry has been written; the two writes of lines 98-99 are taken as one.  [None]: no
    result within [n] rounds. *)
Definition rf_sol ceps seps (N : nat) d C L (gt : list nat) (const : Z) (f g : tsp) (stop : option nat) (n : nat) : option (list nat) :=
  let gtl := rf_gtl gt in
  let es := rf_entries ceps seps d C L gt gtl const f in
  let m := floyd N (rf_matrix (match stop with Some s => firstn s es | None => es end)) in
  let b := argmin_diag N m in
  rf_routes (match stop with Some _ => true | None => false end) gt gtl f g m b n b (snd m b b) [0%nat].

(** An interrupt before the first call of partition_tsp_opt_algo has returned, or later. *)
Inductive rf_point := BeforeCost | AfterEntries (s : nat).
(** The solution returned, or raised with KeyboardInterrupt (lines 173-174).  route_cost is read in
    line 160 also for interrupted runs: NameError if it has never been assigned. *)
Inductive rf_outcome := RfReturns (sol : list nat) | RfInterrupted (sol : list nat) | RfNameError.

(** _partition_to_routes_with_cost_matrix, lines 48-176 *)
Definition rf_partition ceps seps N d C L gt const f g (stop : option rf_point) (n : nat) : option rf_outcome :=
  match stop with
  | None => option_map RfReturns (rf_sol ceps seps N d C L gt const f g None n)
  | Some BeforeCost => option_map (fun _ => RfNameError) (rf_sol ceps seps N d C L gt const f g (Some 0%nat) n)
  | Some (AfterEntries s) => option_map RfInterrupted (rf_sol ceps seps N d C L gt const f g (Some s) n)
  end.

(** route_first_cluster_second_init, lines 178-238.  An interrupt in tsp_gen_algo is not caught and
    not modelled. *)
Definition rfcs_init ceps seps N d C L (minimize_K : bool) (gen f g : tsp) (stop : option rf_point) (n : nat) : option rf_outcome :=
  if (N <=? 2)%nat then Some (RfReturns (range 0 N ++ [0%nat]))
  else
    let '(gt, len) := gen (range 1 N) in
    rf_partition ceps seps N d C L gt (if minimize_K then len else 0) f g stop n.

(** The built-in solvers (tsp_solver_ropt.py) as parameters *)
Definition as_tsp (r : list nat -> option (option (list nat * Z))) : tsp :=
  fun l => match r l with Some (Some x) => x | _ => ([], 0) end.
