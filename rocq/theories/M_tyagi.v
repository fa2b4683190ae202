(** * Model of verypy/classic_heuristics/tyagi_nearest_neighbor.py, and of the route improvement
    callback of nearest_neighbor.py

    Routes are without their depots.  Logging is left out.  One route is built at a time, as in the calls of
    tyagi_init. *)
From Verif Require Import Spec Spec_nn Spec_tyagi PyBase M_util M_psavings M_nn.

(** _push_if_popped_to_peek_queue, lines 75-94 *)
Definition push_back (n : nat) (key : Z) (q : pq) : pq :=
  let replaced (at_pos : nat) := PyBase.set_nth at_pos (n, key) (pq_items q) in
  match (match pq_left q with
         | O => None
         | S p => match nth_error (pq_items q) p with
                  | Some e => if snd e <=? key then Some (mkpq (replaced p) p (pq_right q)) else None
                  | None => None
                  end
         end) with
  | Some q' => q'
  | None =>
      match pq_right q with
      | S (S r) =>
          let p := (length (pq_items q) - S (S r))%nat in
          match nth_error (pq_items q) p with
          | Some e => if key <=? snd e then mkpq (replaced p) (pq_left q) (S r) else q
          | None => q
          end
      | _ => q
      end
  end.

(** A route improvement callback: given the route, its demand and its cost, and which customers are
    served and the queues.  [None]: IndexError. *)
Definition improvement := list nat -> Z -> Z -> (nat -> bool) -> (nat -> pq) -> option (list nat * (nat -> bool) * (nat -> pq)).

(** route_end_interchange, lines 96-175.  [try_all]: try_to_interchange_all.  best_d_delta and
    best_l_delta are never changed, so that the last candidate that passes the test is taken. *)
Definition node_before (r : list nat) (p : nat) : nat := match p with O => 0%nat | S p' => nth p' r 0%nat end.
Definition node_after (r : list nat) (p : nat) : nat := nth (S p) r 0%nat.
Definition interchange_ok (ceps seps : Z) (D : matrix) (d : demands) (C L : limit) (r : list nat) (route_d route_l : Z) (nn p : nat) : bool :=
  let x := nth p r 0%nat in
  let d_delta := - d x + d nn in
  let l_delta := - D (node_before r p) x - D x (node_after r p) + D (node_before r p) nn + D nn (node_after r p) in
  negb (exceeds L seps (route_l + l_delta)) && negb (exceeds C ceps (route_d + d_delta)) &&
  ((is_set C && (0 <? d_delta)) || (negb (is_set C) && is_set L && (l_delta <? 0))).
Definition route_end_interchange (ceps seps : Z) (N : nat) (D : matrix) (d : demands) (C L : limit) (try_all : bool) : improvement :=
  fun r route_d route_l served q =>
    let last_added := last r 0%nat in
    match next_unserved served (S (pq_len (q last_added))) (q last_added) with
    | None => None
    | Some (nn, ql) =>
        let q1 := upd q last_added ql in
        let candidates := if try_all then seq 0 (length r) else [(length r - 1)%nat; 0%nat] in
        let found := fold_left (fun acc p => if interchange_ok ceps seps D d C L r route_d route_l nn p then Some p else acc) candidates None in
        match found with
        | None => Some (r, served, q1)
        | Some p =>
            let x := nth p r 0%nat in
            let served1 := upd served nn true in
            let q2 := fun i => if (i <? N)%nat && (Nat.eqb i 0 || negb (served1 i)) && negb (Nat.eqb i x)
                               then push_back x (D i x) (q1 i) else q1 i in
            Some (firstn p r ++ nn :: skipn (S p) r, upd served1 x false, q2)
        end
    end.

(** One iteration of nearest_neighbor_init with a callback, nearest_neighbor.py:190-298: [nn_iter] but for
    the lines 238-262. *)
Definition nn_iter_cb (cb : improvement) (ceps seps : Z) (N : nat) (D : matrix) (d : demands) (C L : limit) (m : nn_mode) (ends_only : bool)
           (s : nstate) : nres :=
  let k := ns_k s in
  match nth_error (ns_slots s) k with
  | None => Exc EIndex
  | Some sl =>
      match sl_nodes sl with
      | [] =>
          match get_seed_node N D m (ns_served s) (ns_q s) with
          | NoSeed => Exc EIndex
          | SeedTypeError => Exc EType
          | SeedUnbound => Exc EUnbound
          | Seed sd q =>
              let sl' := mkslot [sd] sd (if is_set C then d sd else sl_demand sl) (if is_set L then 0 else sl_cost sl) in
              let slots' := set_slot k sl' (ns_slots s) in
              Go (mkns q (upd (ns_served s) sd true) (ns_sol s) slots' (if Nat.eqb k (length slots') then 0%nat else k))
                 [(N_deque, (ns_sol s, set_slot k (mkslot [] (sl_prev sl) (sl_demand sl) (sl_cost sl)) (ns_slots s)));
                  (N_seeded, (ns_sol s, slots'))]
          end
      | first :: _ =>
          let last := last (sl_nodes sl) 0%nat in
          let prev := sl_prev sl in
          match next_unserved (ns_served s) (S (pq_len (ns_q s prev))) (ns_q s prev) with
          | None => Exc EIndex
          | Some (nn, qp) =>
              let delta_end := D 0%nat first + D last nn + D nn 0%nat in
              let delta_start := D 0%nat nn + D nn first + D last 0%nat in
              let front := negb ends_only && (delta_start <? delta_end) in
              let delta := if front then delta_start else delta_end in
              if exceeds C ceps (sl_demand sl + d nn) || exceeds L seps (sl_cost sl + delta)
              then
                match cb (sl_nodes sl) (sl_demand sl) (D 0%nat first + sl_cost sl + D last 0%nat) (ns_served s) (upd (ns_q s) prev qp) with
                | None => Exc EIndex
                | Some (nodes, served, q) =>
                    let sol' := ns_sol s ++ nodes ++ [0%nat] in
                    let slots' := set_slot k (mkslot [] prev (sl_demand sl) (sl_cost sl)) (ns_slots s) in
                    Go (mkns q served sol' slots' (if Nat.eqb k (length slots') then 0%nat else k))
                       [(N_stored, (sol', ns_slots s)); (N_released, (sol', slots'))]
                end
              else
                let rd := if is_set C then sl_demand sl + d nn else sl_demand sl in
                let nodes := if front then nn :: sl_nodes sl else sl_nodes sl ++ [nn] in
                let rc := if is_set L then sl_cost sl + (if front then D nn first else D last nn) else sl_cost sl in
                let slots' := set_slot k (mkslot nodes nn rd rc) (ns_slots s) in
                match pq_popleft qp with
                | None => Exc EIndex
                | Some (_, qp') =>
                    Go (mkns (upd (ns_q s) prev qp') (upd (ns_served s) nn true) (ns_sol s) slots'
                             (if Nat.eqb (S k) (length slots') then 0%nat else S k))
                       [(N_added, (ns_sol s, slots'))]
                end
          end
      end
  end.
Fixpoint nn_loop_cb cb ceps seps N D d C L m ends_only (n : nat) (s : nstate) : option (nstate * exn_kind * list nsnap) :=
  match n with
  | O => None
  | S n' =>
      match nn_iter_cb cb ceps seps N D d C L m ends_only s with
      | Exc e => Some (s, e, [])
      | Go s' pts =>
          match nn_loop_cb cb ceps seps N D d C L m ends_only n' s' with
          | None => None
          | Some (sf, e, pts') => Some (sf, e, pts ++ (N_start, (ns_sol s', ns_slots s')) :: pts')
          end
      end
  end.
(** nearest_neighbor_init with route_improvement_callback, one emerging route and mode "farthest".
    [Some None]: None is returned. *)
Definition nearest_neighbor_cb cb ceps seps N D d C L ends_only forbidden (n : nat) : option (option (list nat) * list nsnap) :=
  match nn_loop_cb cb ceps seps N D d C L NNfarthest ends_only n (nn_init N D 1 forbidden) with
  | Some (s, EIndex, pts) =>
      let sol := nn_close (ns_sol s) (ns_slots s) in
      Some (if Nat.eqb (length sol) 1 then None else Some sol, (N_start, ([0%nat], repeat (mkslot [] 0 0 0) 1)) :: pts)
  | _ => None
  end.

(** ** tyagi_init, lines 178-348 *)
(** The criteria.  [UBal K s q]: K routes, the sum of their demands and the sum of the squares, for the
    tuple (-std, average); [UMax a b]: a / b; [UPen p]. *)
Inductive utilisation := UBal (K : nat) (s q : Z) | UMax (a b : Z) | UPen (p : Z).

(** _calculate_penalty, lines 50-55, without the parentheses that are missing there *)
Definition calculate_penalty (sol : list nat) (D : matrix) (d : demands) (C : Z) : Z :=
  sumZ (map (fun r => C - totald r d * objf r D) (sol2routes sol)).
(** _calculate_route_demand_statistics, lines 57-73 *)
Fixpoint route_demands (sol : list nat) (d : demands) (acc : Z) : list Z :=
  match sol with
  | [] => []
  | n :: t => if Nat.eqb n 0 && negb (acc =? 0) then acc :: route_demands t d 0 else route_demands t d (acc + d n)
  end.
Definition demand_statistics (sol : list nat) (d : demands) (K : nat) : utilisation :=
  let xs := route_demands sol d 0 in UBal K (sumZ xs) (sumZ (map (fun x => x * x) xs)).
(** [K]: the number of routes for the average, [Kall]: for the capacity *)
Definition utilisation_of (g : grouping) (sol : list nat) (D : matrix) (d : demands) (C : Z) (K Kall : nat) : utilisation :=
  match g with
  | Balanced => demand_statistics sol d K
  | MaxDemand => UMax (totald sol d) (Z.of_nat Kall * C)
  | MinPenalty => UPen (calculate_penalty sol D d C)
  end.
(** [a > b] *)
Definition util_gt (a b : utilisation) : bool :=
  match a, b with
  | UBal K1 s1 q1, UBal K2 s2 q2 =>
      let k1 := Z.of_nat K1 in
      let k2 := Z.of_nat K2 in
      let v1 := (k1 * q1 - s1 * s1) * (k2 * k2) in          (* variances times k1^2 * k2^2 *)
      let v2 := (k2 * q2 - s2 * s2) * (k1 * k1) in
      (v1 <? v2) || ((v1 =? v2) && (s2 * k1 <? s1 * k2))
  | UMax a1 b1, UMax a2 b2 => (a2 * b2) * (b1 * b1) <? (a1 * b1) * (b2 * b2)
  | UPen p1, UPen p2 => p2 <? p1
  | _, _ => false
  end.

(** min(d[1:]) > tot_d-C*(K-1), lines 246-248; ceil(tot_d/C) as in exact arithmetic *)
Definition may_have_single (N : nat) (d : demands) (C : Z) : bool :=
  let tot := sumZ (map d (range 0 N)) in
  let K := - ((- tot) / C) in
  forallb (fun n => tot - C * (K - 1) <? d n) (range 1 N).

Inductive ty_result := TyReturn (sol : option (list nat)) | TyRaises.

Section Tyagi.
Variables ceps seps : Z.
Variable N : nat.
Variable D : matrix.
Variable d : demands.
Variables C L : limit.
Variables only_large try_all : bool.
Variable g : grouping.
Variable solve_tsp : list nat -> list nat * Z.
Variable fuel : nat.

(** The two calls of nearest_neighbor_init: add_only_to_end is set in the first one only. *)
Definition ty_group (ends_only : bool) (forbidden : list nat) : option (option (list nat) * list nsnap) :=
  nearest_neighbor_cb (route_end_interchange ceps seps N D d C L try_all) ceps seps N D d C L ends_only forbidden fuel.

(** Lines 288-299 *)
Definition ty_candidates (c : Z) : list nat :=
  if only_large
  then filter (fun n => (c <? 2 * d n) && (2 * D 0%nat n <? fold_right Z.max (D 0%nat 0%nat) (map (D 0%nat) (range 0 N)))) (range 1 N)
  else range 1 N.

(** The loop of lines 301-333: the values [solution] has had, the latest first.  Outer [None]: out of fuel; inner
    [None]: AttributeError, cndt_sol is None. *)
Fixpoint ty_try (c : Z) (best_K : nat) (cands : list nat) (util : utilisation) (sols : list (list nat)) : option (option (list (list nat))) :=
  match cands with
  | [] => Some (Some sols)
  | x :: t =>
      match ty_group false [x] with
      | None => None
      | Some (None, _) => Some None
      | Some (Some cs, _) =>
          let cK := (count_occ Nat.eq_dec cs 0%nat - 1 + 1)%nat in
          if (best_K <? cK)%nat then ty_try c best_K t util sols
          else
            let u := utilisation_of g cs D d c (cK - 1) cK in
            if util_gt u util then ty_try c best_K t u ((cs ++ [x; 0%nat]) :: sols)
            else ty_try c best_K t util sols
      end
  end.

(** Lines 244-333.  An instance without customers raises in lines 248 or 260. *)
Definition ty_grouping : option (option (list (list nat))) :=
  match ty_group true [] with
  | None => None
  | Some (None, _) => Some None
  | Some (Some sol, _) =>
      let routes := sol2routes sol in
      let singles := filter (fun r => Nat.eqb (length r) 3) routes in
      if is_set C && match C with
                     | Some c => may_have_single N d c || negb (Nat.eqb (length singles) 0)
                     | None => false
                     end
      then match C with
           | Some c => ty_try c (count_occ Nat.eq_dec sol 0%nat - 1) (ty_candidates c)
                              (utilisation_of g sol D d c (length routes) (length routes)) [sol]
           | None => Some (Some [sol])
           end
      else Some (Some [sol])
  end.

(** Lines 335-348 *)
Definition tyagi_init : option ty_result :=
  match ty_grouping with
  | None => None
  | Some (Some (sol :: _)) => Some (TyReturn (routes2sol (map (fun r => Some (fst (solve_tsp (removelast r)))) (sol2routes sol))))
  | Some _ => Some TyRaises
  end.

(** The arguments with which an interrupt may leave: in the first call of nearest_neighbor_init those of M_nn, later
    the value of [solution] (line 345). *)
Definition tyagi_interrupts : option (list (list nat)) :=
  match ty_group true [], ty_grouping with
  | Some (_, pts), Some (Some sols) => Some (map (nn_interrupted N) pts ++ sols)
  | _, _ => None
  end.
End Tyagi.
