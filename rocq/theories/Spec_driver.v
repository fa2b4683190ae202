(** * Specification for the local search driver: contracts of operators *)
From Verif Require Import Spec Spec_ls Spec_inter M_routedata M_driver.

(** The route data of a solution: [rel r rd] says that [rd] describes the route [r]. *)
Definition only_route (r : list nat) (rd : routedata) : Prop := rd_route rd = wrap r.

(** No customer occurs twice, the depot does not occur. *)
Definition distinct_customers (rs : list (list nat)) : Prop :=
  NoDup (concat rs) /\ customers_only (concat rs).

(** What an operator may do to the routes it is given: the customers and the number of routes
    are kept, good routes stay good, and [prog before after] holds. *)
Definition op_sound (rel : list nat -> routedata -> Prop) (good : list nat -> Prop)
           (prog : list (list nat) -> list (list nat) -> Prop) (o : ls_op) : Prop :=
  forall first rs rds rds' delta,
    length rs = op_count o -> distinct_customers rs -> Forall2 rel rs rds -> run_op o rds first = Some (rds', delta) ->
    exists rs', Forall2 rel rs' rds' /\ length rs' = length rs /\
      Permutation (concat rs') (concat rs) /\ (Forall good rs -> Forall good rs') /\ prog rs rs'.

(** Progress: the cost decreases, or a route is emptied. *)
Definition cheaper (D : matrix) (rs rs' : list (list nat)) : Prop := routes_cost D rs' < routes_cost D rs.
Definition cheaper_or_fewer (D : matrix) (rs rs' : list (list nat)) : Prop := cheaper D rs rs' \/ In [] rs'.

(** No operator of the list finds anything on the non-empty routes of [rds]: neither on ordered
    selections of routes nor, for operators sensitive to the order, on any other. *)
Definition increasing (ris : list nat) : Prop :=
  forall i j, (i < j < length ris)%nat -> (nth i ris 0%nat < nth j ris 0%nat)%nat.
Definition local_optimum (sem : nat -> ls_op) (ls_ops : list nat) (first : bool)
           (rs : list (list nat)) (rds : list routedata) : Prop :=
  forall op ris, In op ls_ops -> length ris = op_count (sem op) -> NoDup ris ->
    (forall i, In i ris -> (i < length rs)%nat /\ nth i rs [] <> []) ->
    (op_sensitive (sem op) = false -> increasing ris) ->
    run_op (sem op) (map (fun i => nth i rds empty_rd) ris) first = None.

(** ** The library operators by number: the neighbourhoods they search (C12-C15, C17-C19, C22). *)
Definition library_nbr (eps : Z) (D : matrix) (d : demands) (C L : limit) (op : nat)
           (rs : list (list nat)) (rs' : list (list nat)) : Prop :=
  match op, rs with
  | 0, [r] => exists r', rs' = [r'] /\ two_opt_nbr (wrap r) (wrap r')
  | 1, [r] => exists r', rs' = [r'] /\ three_opt_nbr (wrap r) (wrap r')
  | 2, [r] => exists r', rs' = [r'] /\ relocate_nbr (wrap r) (wrap r')
  | 3, [r] => exists r', rs' = [r'] /\ exchange_nbr (wrap r) (wrap r')
  | 4, [r1; r2] => nbr_1point D d C L eps r1 r2 rs'
  | 5, [r1; r2] => nbr_2point D d C L eps r1 r2 rs'
  | 6, [r1; r2; r3] => nbr_chain D d C L r1 r2 r3 rs'
  | 7, [r1; r2] => nbr_2optstar D d C L eps r1 r2 rs'
  | _, _ => False
  end%nat.

(** The order of the two routes does not matter for the 2-point and the 2-opt* move. *)
Definition order_free (op : nat) : bool := Nat.eqb op 5 || Nat.eqb op 7.

(** No selection of non-empty routes can be improved by more than [eps] with a move of [op]. *)
Definition cannot_improve (eps : Z) (D : matrix) (d : demands) (C L : limit) (op : nat)
           (rs : list (list nat)) : Prop :=
  forall ris rs', NoDup ris -> (forall i, In i ris -> (i < length rs)%nat /\ nth i rs [] <> []) ->
    (order_free op = true -> increasing ris) ->
    library_nbr eps D d C L op (map (fun i => nth i rs []) ris) rs' ->
    routes_cost D (map (fun i => nth i rs []) ris) <= routes_cost D rs' + eps.

(** max_iterations not given, or zero *)
Definition unlimited (m : option nat) : Prop := m = None \/ m = Some 0%nat.
