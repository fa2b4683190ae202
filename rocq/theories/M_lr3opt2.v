(** * Model of verypy/classic_heuristics/lr3opt.py: the Lagrangean 3-opt* heuristic

    The Lagrange multipliers are rational numbers with a common denominator [K]: lambdas[0] is
    lC / K.  All values of the Lagrangean objective are multiplied with [K], so that they are
    integers.  A multiplier is doubled without an error; [inf] tells which values stand for
    infinity. *)
From Verif Require Import Spec PyBase M_util M_cvrp_ops M_psavings M_3optstar M_lr3opt.

(** [if C and x-C_EPS>C: ... (x-C)*lambdas[0]] *)
Definition penalty (lim : limit) (eps lam x : Z) : Z :=
  if exceeds lim eps x then match lim with Some c => (x - c) * lam | None => 0 end else 0.
(** [if ldepot_12:], the truth value of a position or None *)
Definition pos_truthy (ld : option nat) : bool := match ld with Some (S _) => true | _ => false end.

(** The lifted penalties of one constraint, lines 66-80 (with the edge weights [w] = 0) and 82-97 *)
Definition removed_penalties (lim : limit) (eps lam : Z) (cum w : nat -> Z) (ld12 ld34 : option nat) : Z :=
  if is_set lim then
    let x := cum 0%nat + cum 1%nat + w 0%nat in
    let pen := if pos_truthy ld12 then penalty lim eps lam x else 0 in
    let x := if pos_truthy ld12 then cum 2%nat + cum 3%nat + w 1%nat else x + cum 3%nat + w 1%nat in
    let pen := if pos_truthy ld34 then pen + penalty lim eps lam x else pen in
    let x := if pos_truthy ld34 then cum 4%nat + cum 5%nat + w 2%nat else x + cum 5%nat + w 2%nat in
    pen + penalty lim eps lam x
  else 0.

(** The loop over the new edges, lines 117-151 *)
Fixpoint lr_edges (ceps seps : Z) (D : matrix) (C L : limit) (K lC lL best_delta : Z) (p n : nat -> nat) (cum_d cum_l : nat -> Z)
         (ld12 ld34 : option nat) (prev : edge) (edges : list edge) (delta route_d route_l : Z) : option Z :=
  match edges with
  | [] =>
      let delta := delta + penalty C ceps lC route_d in
      let delta := delta + penalty L seps lL route_l in
      if delta + K * seps <? best_delta then Some delta else None
  | cur :: t =>
      let at_depot := depot_before p ld12 ld34 prev cur in
      let delta := if at_depot && is_set C then delta + penalty C ceps lC route_d else delta in
      let route_d := if at_depot && is_set C then cum_d (fst cur) else route_d in
      let delta := if at_depot && is_set L then delta + penalty L seps lL route_l else delta in
      let route_l := if at_depot && is_set L then cum_l (fst cur) else route_l in
      if at_depot && (best_delta <=? delta + K * seps) then None
      else
        let route_d := if is_set C then route_d + cum_d (snd cur) else route_d in
        let route_l := if is_set L then route_l + (D (n (fst cur)) (n (snd cur)) + cum_l (snd cur)) else route_l in
        lr_edges ceps seps D C L K lC lL best_delta p n cum_d cum_l ld12 ld34 cur t delta route_d route_l
  end.

(** _check_lr3opt_move, lines 51-157.  [lC] and [lL] are only used if C and L are set. *)
Definition check_lr3opt_move (ceps seps : Z) (D : matrix) (C L : limit) (K lC lL : Z) : checker :=
  fun removed_weights best_delta edges p n cum_d cum_l ld12 ld34 =>
    let removed :=
      removed_penalties C ceps lC cum_d (fun _ => 0) ld12 ld34 +
      removed_penalties L seps lL cum_l (tab [D (n 0%nat) (n 1%nat); D (n 2%nat) (n 3%nat); D (n 4%nat) (n 5%nat)] 0) ld12 ld34 in
    let delta := K * (added_weights D n edges - removed_weights) - removed in
    if delta + K * seps <? best_delta
    then lr_edges ceps seps D C L K lC lL best_delta p n cum_d cum_l ld12 ld34 (0, 0)%nat edges delta 0 0
    else None.

(** The variables of lr3opt_init that the loop changes.  [post] tells that the postoptimisation
    (lines 324-334) runs. *)
Record lr_state := mklr { lr_sol : list nat; lr_lC : option Z; lr_lL : option Z; lr_incs : nat; lr_post : bool }.

(** [sol[-1]==0 and sol[-2]==0], line 300; solutions have at least two entries *)
Definition ends_with_empty (sol : list nat) : bool :=
  match rev sol with x :: y :: _ => Nat.eqb x 0 && Nat.eqb y 0 | _ => false end.
Definition lam_or_zero (l : option Z) : Z := match l with Some x => x | None => 0 end.
Definition double (l : option Z) : option Z := option_map (fun x => x * 2) l.
Definition at_inf (inf : Z -> bool) (l : option Z) : bool := match l with Some x => inf x | None => false end.

(** The step of lr3opt_init up to the next assignment to [sol] or to the multipliers, lines 297-372:
    a depot visit is appended (301), a 3-opt* move is searched for (306-308), or a move of the
    postoptimisation (325-326).  The result is on the right.  The last disjunct of the loop
    condition is also there (sol==new_sol, line 313).
    Line 344 tests lambdas[0] where lambdas[1] was doubled. *)
Definition lr_step (ceps seps : Z) (D : matrix) (d : demands) (C L : limit) (K : Z) (inf : Z -> bool) (postopt : bool) (max_incs : option nat)
           (s : lr_state) : lr_state + option (list nat) :=
  let sol := lr_sol s in
  if lr_post s then
    match do_3optstar_move ceps seps sol D d C L true None with
    | None => inr (normalize_solution (Giant sol))
    | Some (opt_sol, _) => inl (mklr opt_sol (lr_lC s) (lr_lL s) (lr_incs s) true)
    end
  else if negb (ends_with_empty sol) then inl (mklr (sol ++ [0%nat]) (lr_lC s) (lr_lL s) (lr_incs s) false)
  else
    let local_optimum :=
      if check_CL_constraints ceps seps sol D d C L then
        if postopt then inl (mklr sol (lr_lC s) (lr_lL s) (lr_incs s) true) else inr (normalize_solution (Giant sol))
      else
        let lC := double (lr_lC s) in
        let lL := double (lr_lL s) in
        let lambda_at_inf := at_inf inf lC || match lL with Some _ => at_inf inf lC | None => false end in
        let incs := S (lr_incs s) in
        if lambda_at_inf || match max_incs with Some m => (m <? incs)%nat | None => false end
        then inr (force_feasible ceps seps sol D d C L)
        else inl (mklr sol lC lL incs false) in
    match do_3optstar_with (check_lr3opt_move ceps seps D C L K (lam_or_zero (lr_lC s)) (lam_or_zero (lr_lL s))) sol D d true None with
    | None => local_optimum
    | Some (new_sol, _) =>
        if list_eq_dec Nat.eq_dec sol new_sol then local_optimum
        else inl (mklr new_sol (lr_lC s) (lr_lL s) 0 false)
    end.

(** How the call ends: it returns or passes on an interrupt (None stands for the None of routes2sol). *)
Inductive lr_outcome := LrReturn (sol : option (list nat)) | LrInterrupt (sol : option (list nat)).

(** The loop, lines 296-372, and the interrupt handler, lines 376-379.  The interrupt comes after
    [stop] steps.  [None]: out of fuel. *)
Fixpoint lr_loop (step : lr_state -> lr_state + option (list nat)) (repair : list nat -> option (list nat))
         (fuel : nat) (stop : option nat) (s : lr_state) : option lr_outcome :=
  match stop with
  | Some 0%nat => Some (LrInterrupt (repair (lr_sol s)))
  | _ =>
      match fuel with
      | 0%nat => None
      | S fuel =>
          match step s with
          | inr r => Some (LrReturn r)
          | inl s' => lr_loop step repair fuel (option_map Nat.pred stop) s'
          end
      end
  end.

(** lr3opt_init, lines 222-381.  [initial] is the solution of the initialisation algorithm, None if
    it is interrupted: then sol2routes(None) has no routes and routes2sol gives None.  The multipliers are those
    after lines 275-285: given by the caller or computed from the averages. *)
Definition lr3opt_init (ceps seps : Z) (D : matrix) (d : demands) (C L : limit) (K : Z) (lC lL : option Z) (inf : Z -> bool)
           (postopt : bool) (max_incs : option nat) (initial : option (list nat)) (fuel : nat) (stop : option nat) : option lr_outcome :=
  match initial with
  | None => Some (LrInterrupt None)
  | Some sol =>
      lr_loop (lr_step ceps seps D d C L K inf postopt max_incs) (fun sol => force_feasible ceps seps sol D d C L)
              fuel stop (mklr sol lC lL 0 false)
  end.
