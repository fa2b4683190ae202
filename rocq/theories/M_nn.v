(** * Model of verypy/classic_heuristics/nearest_neighbor.py

    Arrays indexed by nodes are functions.  Logging and the route improvement callback (used by
    tyagi_nearest_neighbor.py only) are left out.  Interrupts are as in M_psavings. *)
From Verif Require Import Spec Spec_nn PyBase M_util M_psavings.

(** ** _PeekQueue, lines 37-84: [pq_left] = posleft+1, [pq_right] = -posright *)
Record pq := mkpq { pq_items : list (nat * Z); pq_left : nat; pq_right : nat }.
Definition pq_new (l : list (nat * Z)) : pq := mkpq l 0 0.
Definition pq_len (q : pq) : nat := length (pq_items q) - pq_left q - pq_right q.
(** [None]: IndexError *)
Definition pq_get (q : pq) (idx : nat) : option (nat * Z) :=
  if (pq_len q <=? idx)%nat then None else nth_error (pq_items q) (pq_left q + idx).
Definition pq_peekleft (q : pq) : option (nat * Z) :=
  if Nat.eqb (pq_len q) 0 then None else nth_error (pq_items q) (pq_left q).
Definition pq_popleft (q : pq) : option ((nat * Z) * pq) :=
  if Nat.eqb (pq_len q) 0 then None
  else match nth_error (pq_items q) (pq_left q) with
       | Some x => Some (x, mkpq (pq_items q) (S (pq_left q)) (pq_right q))
       | None => None
       end.
Definition pq_peekright (q : pq) : option (nat * Z) :=
  if Nat.eqb (pq_len q) 0 then None else nth_error (pq_items q) (length (pq_items q) - (pq_right q + 1)).
Definition pq_popright (q : pq) : option ((nat * Z) * pq) :=
  if Nat.eqb (pq_len q) 0 then None
  else match nth_error (pq_items q) (length (pq_items q) - (pq_right q + 1)) with
       | Some x => Some (x, mkpq (pq_items q) (pq_left q) (S (pq_right q)))
       | None => None
       end.

(** sorted(enumerate(D[i][:]), key=itemgetter(1)), line 163: stable insertion sort *)
Fixpoint nn_insert (x : nat * Z) (l : list (nat * Z)) : list (nat * Z) :=
  match l with
  | [] => [x]
  | y :: t => if snd x <=? snd y then x :: y :: t else y :: nn_insert x t
  end.
Definition nn_sort (l : list (nat * Z)) : list (nat * Z) := fold_right nn_insert [] l.
(** Lines 162-165; the pop of "self" never fails for i < N. *)
Definition nn_queue (N : nat) (D : matrix) (i : nat) : pq :=
  mkpq (nn_sort (map (fun j => (j, D i j)) (range 0 N))) 1 0.

(** ** get_seed_node, lines 86-117 *)
Inductive nn_mode := NNfarthest | NNclosest | NNnearest.

(** [Seed s q]; [NoSeed]: IndexError; [SeedTypeError]: served[None]; [SeedUnbound]: [nearest] is read
    before it is assigned. *)
Inductive seed_result := Seed (s : nat) (q : nat -> pq) | NoSeed | SeedTypeError | SeedUnbound.

Definition upd {A} (f : nat -> A) (i : nat) (x : A) : nat -> A := fun j => if Nat.eqb j i then x else f j.

(** The loop of the modes "farthest" and "closest"; at most [n] pops. *)
Fixpoint seed_pop (pop : pq -> option ((nat * Z) * pq)) (served : nat -> bool) (n : nat) (q : pq) : option (nat * pq) :=
  match n with
  | O => None
  | S n' => match pop q with
            | None => None
            | Some (x, q') => if served (fst x) then seed_pop pop served n' q' else Some (fst x, q')
            end
  end.

(** Lines 101-107: the loop that drops served neighbours of [i]; at most [n] rounds. *)
Fixpoint seed_drop (served : nat -> bool) (i n : nat) (q : pq) (nearest : option nat) : pq * option nat :=
  match n with
  | O => (q, nearest)
  | S n' =>
      if negb (served i) && (0 <? pq_len q)%nat
      then match pq_popleft q with
           | None => (q, nearest)
           | Some (x, q') => if served (fst x) then seed_drop served i n' q' (Some (fst x)) else (q, Some (fst x))
           end
      else (q, nearest)
  end.

(** The loop of the mode "nearest", lines 95-110. *)
Fixpoint seed_scan (D : matrix) (served : nat -> bool) (is : list nat)
         (seed nearest : option nat) (dist : option Z) (q : nat -> pq) : seed_result :=
  match is with
  | [] => match seed with Some s => Seed s q | None => SeedTypeError end
  | i :: t =>
      if served i then seed_scan D served t seed nearest dist q
      else
        let seed1 := match seed with None => Some i | Some s => Some s end in
        let '(qi, nearest1) := seed_drop served i (S (pq_len (q i))) (q i) nearest in
        match nearest1 with
        | None => SeedUnbound
        | Some nr =>
            if match dist with Some x => D i nr <? x | None => true end
            then seed_scan D served t (Some i) nearest1 (Some (D i nr)) (upd q i qi)
            else seed_scan D served t seed1 nearest1 dist (upd q i qi)
        end
  end.

Definition get_seed_node (N : nat) (D : matrix) (m : nn_mode) (served : nat -> bool) (q : nat -> pq) : seed_result :=
  match m with
  | NNfarthest => match seed_pop pq_popleft served (S (pq_len (q 0%nat))) (q 0%nat) with
                  | Some (s, q0) => Seed s (upd q 0%nat q0) | None => NoSeed end
  | NNclosest => match seed_pop pq_popright served (S (pq_len (q 0%nat))) (q 0%nat) with
                 | Some (s, q0) => Seed s (upd q 0%nat q0) | None => NoSeed end
  | NNnearest => seed_scan D served (range 1 N) None None None q
  end.

(** ** nearest_neighbor_init, lines 119-329 *)

(** route_nodes[k] ([] for None), prev_added[k], route_demands[k], route_costs[k] *)
Record slot := mkslot { sl_nodes : list nat; sl_prev : nat; sl_demand : Z; sl_cost : Z }.
Record nstate := mkns { ns_q : nat -> pq; ns_served : nat -> bool; ns_sol : list nat; ns_slots : list slot; ns_k : nat }.

Inductive npoint :=
| N_start     (* before and after an iteration *)
| N_deque     (* after route_nodes[k] = deque() *)
| N_seeded    (* after route_nodes[k].append(seed_node) and up to the end of the iteration *)
| N_stored    (* after sol.extend(current_route[1:]) *)
| N_released  (* after route_nodes[k] = None *)
| N_added.    (* after append or appendleft and up to the end of the iteration *)
(** What the handler looks at. *)
Definition nsnap := (npoint * (list nat * list slot))%type.

Inductive exn_kind := EIndex | EType | EUnbound.
Inductive nres := Go (s : nstate) (pts : list nsnap) | Exc (e : exn_kind).

Definition set_slot (k : nat) (x : slot) (l : list slot) : list slot := firstn k l ++ x :: skipn (S k) l.

(** Lines 224-231: the nearest customer not served yet; at most [n] rounds. *)
Fixpoint next_unserved (served : nat -> bool) (n : nat) (q : pq) : option (nat * pq) :=
  match n with
  | O => None
  | S n' => match pq_popleft q with
            | None => None
            | Some (x, q') => if served (fst x) then next_unserved served n' q' else Some (fst x, q)
            end
  end.

(** One iteration, lines 190-298 *)
Definition nn_iter (ceps seps : Z) (N : nat) (D : matrix) (d : demands) (C L : limit) (m : nn_mode) (ends_only : bool)
           (s : nstate) : nres :=
  let k := ns_k s in
  match nth_error (ns_slots s) k with
  | None => Exc EIndex
  | Some sl =>
      match sl_nodes sl with
      | [] =>
          match get_seed_node N D m (ns_served s) (ns_q s) with
          | NoSeed => Exc EIndex
          | SeedTypeError => Exc EType
          | SeedUnbound => Exc EUnbound
          | Seed sd q =>
              let sl' := mkslot [sd] sd (if is_set C then d sd else sl_demand sl) (if is_set L then 0 else sl_cost sl) in
              let slots' := set_slot k sl' (ns_slots s) in
              Go (mkns q (upd (ns_served s) sd true) (ns_sol s) slots' (if Nat.eqb k (length slots') then 0%nat else k))
                 [(N_deque, (ns_sol s, set_slot k (mkslot [] (sl_prev sl) (sl_demand sl) (sl_cost sl)) (ns_slots s)));
                  (N_seeded, (ns_sol s, slots'))]
          end
      | first :: _ =>
          let last := last (sl_nodes sl) 0%nat in
          let prev := sl_prev sl in
          match next_unserved (ns_served s) (S (pq_len (ns_q s prev))) (ns_q s prev) with
          | None => Exc EIndex
          | Some (nn, qp) =>
              let delta_end := D 0%nat first + D last nn + D nn 0%nat in
              let delta_start := D 0%nat nn + D nn first + D last 0%nat in
              let front := negb ends_only && (delta_start <? delta_end) in
              let delta := if front then delta_start else delta_end in
              if exceeds C ceps (sl_demand sl + d nn) || exceeds L seps (sl_cost sl + delta)
              then
                let sol' := ns_sol s ++ sl_nodes sl ++ [0%nat] in
                let slots' := set_slot k (mkslot [] prev (sl_demand sl) (sl_cost sl)) (ns_slots s) in
                Go (mkns (upd (ns_q s) prev qp) (ns_served s) sol' slots' (if Nat.eqb k (length slots') then 0%nat else k))
                   [(N_stored, (sol', ns_slots s)); (N_released, (sol', slots'))]
              else
                let rd := if is_set C then sl_demand sl + d nn else sl_demand sl in
                let nodes := if front then nn :: sl_nodes sl else sl_nodes sl ++ [nn] in
                let rc := if is_set L then sl_cost sl + (if front then D nn first else D last nn) else sl_cost sl in
                let slots' := set_slot k (mkslot nodes nn rd rc) (ns_slots s) in
                match pq_popleft qp with
                | None => Exc EIndex
                | Some (_, qp') =>
                    Go (mkns (upd (ns_q s) prev qp') (upd (ns_served s) nn true) (ns_sol s) slots'
                             (if Nat.eqb (S k) (length slots') then 0%nat else S k))
                       [(N_added, (ns_sol s, slots'))]
                end
          end
      end
  end.

(** The loop, lines 188-298: the state in which the exception is raised, and the points passed.
    At most [n] iterations. *)
Fixpoint nn_loop ceps seps N D d C L m ends_only (n : nat) (s : nstate) : option (nstate * exn_kind * list nsnap) :=
  match n with
  | O => None
  | S n' =>
      match nn_iter ceps seps N D d C L m ends_only s with
      | Exc e => Some (s, e, [])
      | Go s' pts =>
          match nn_loop ceps seps N D d C L m ends_only n' s' with
          | None => None
          | Some (sf, e, pts') => Some (sf, e, pts ++ (N_start, (ns_sol s', ns_slots s')) :: pts')
          end
      end
  end.

(** The initial state, lines 160-185; slots are [None, None, 0.0, 0]. *)
Definition nn_init (N : nat) (D : matrix) (K : nat) (forbidden : list nat) : nstate :=
  mkns (nn_queue N D) (fun i => Nat.eqb i 0 || existsb (Nat.eqb i) forbidden) [0%nat] (repeat (mkslot [] 0 0 0) K) 0.

(** The handler: closing the routes, lines 309-312 *)
Definition nn_close (sol : list nat) (slots : list slot) : list nat :=
  sol ++ flat_map (fun s => match sl_nodes s with [] => [] | r => r ++ [0%nat] end) slots.

(** [Ok None]: None is returned; an exception other than IndexError leaves the function. *)
Inductive nn_outcome := NNok (sol : option (list nat)) | NNraise (e : exn_kind).
Definition nearest_neighbor_init ceps seps N D d C L (K : nat) m ends_only forbidden (n : nat) : option (nn_outcome * list nsnap) :=
  match nn_loop ceps seps N D d C L m ends_only n (nn_init N D K forbidden) with
  | None => None
  | Some (s, e, pts) =>
      Some (match e with
            | EIndex => let sol := nn_close (ns_sol s) (ns_slots s) in
                        NNok (if Nat.eqb (length sol) 1 then None else Some sol)
            | _ => NNraise e
            end,
            (N_start, ([0%nat], repeat (mkslot [] 0 0 0) K)) :: pts)
  end.

(** What an interrupt at a point reports, lines 309-312 and 320-329 *)
Definition nn_interrupted (N : nat) (p : nsnap) : list nat :=
  let sol := nn_close (fst (snd p)) (snd (snd p)) in
  let unrouted := filter (fun n => negb (existsb (Nat.eqb n) sol)) (range 0 N) in
  let rest := routes2sol_gen (map (fun n => Some [n]) unrouted) in
  if (1 <? length sol)%nat then removelast sol ++ rest else rest.

(** A client of _PeekQueue that calls its methods and catches IndexError. *)
Fixpoint pq_run (ops : list deque_op) (q : pq) : list (deque_obs (nat * Z)) :=
  match ops with
  | [] => []
  | PopLeft :: t => match pq_popleft q with
                    | Some (x, q') => Answer (Some x) :: pq_run t q' | None => Answer None :: pq_run t q end
  | PopRight :: t => match pq_popright q with
                     | Some (x, q') => Answer (Some x) :: pq_run t q' | None => Answer None :: pq_run t q end
  | PeekLeft :: t => Answer (pq_peekleft q) :: pq_run t q
  | PeekRight :: t => Answer (pq_peekright q) :: pq_run t q
  | Size :: t => Number (pq_len q) :: pq_run t q
  | Item i :: t => Answer (pq_get q i) :: pq_run t q
  end.
