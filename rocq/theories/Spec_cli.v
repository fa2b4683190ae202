(** * Specification for the command line interfaces *)
From Verif Require Import Spec Spec_inter Spec_driver M_cvrp_ops M_cli.

(** The routes with customers. *)
Definition driven (rs : list (list nat)) : list (list nat) := filter nonempty rs.

(** [rs] is better than [rs']: by number of routes and then cost, or by cost. *)
Definition better_solution (minimize_K : bool) (D : matrix) (rs rs' : list (list nat)) : Prop :=
  beats minimize_K (routes_cost D rs) (length (driven rs)) (routes_cost D rs') (length (driven rs')).

(** [sol] writes down the routes of [rs], up to the order and the directions of the routes. *)
Definition writes (rs : list (list nat)) (sol : list nat) : Prop :=
  exists ns, sol = encode ns /\ same_routes (driven rs) ns /\ normalize_solution (Giant (encode rs)) = Some sol.

(** [sol] writes down the best of the solutions [rss], the first one of several best. *)
Definition best_written (minimize_K : bool) (D : matrix) (rss : list (list (list nat))) (sol : list nat) : Prop :=
  exists l1 rs l2, rss = l1 ++ rs :: l2 /\ writes rs sol /\
    (forall rs', In rs' l1 -> better_solution minimize_K D rs rs') /\
    (forall rs', In rs' l2 -> ~ better_solution minimize_K D rs' rs).

(** ** The main loop: one problem and one algorithm are a job *)
Definition proper_problem (p : problem) : Prop :=
  (2 <= p_N p)%nat /\ symmetric (p_D p) /\ p_D p 0%nat 0%nat = 0 /\ p_d p 0%nat = 0 /\
  (forall c, p_C p = Some c -> 0 <= c) /\ (forall l, p_L p = Some l -> 0 <= l) /\
  (p_Dc p = p_D p \/ exists u int_dtype st, D2D_c u int_dtype (p_D p) st = Some (p_Dc p)).

(** No customer twice and no unknown one; some may be missing. *)
Definition proper_solution (N : nat) (rs : list (list nat)) : Prop :=
  distinct_customers rs /\ Forall (fun c => (c < N)%nat) (concat rs) /\ concat rs <> [].

(** The solution an algorithm comes up with, if any, and whether it was interrupted. *)
Definition found (o : algo_outcome) : option (list nat) :=
  match o with Returns s => s | Interrupt s => s | Raises => None end.
Definition interrupted (o : algo_outcome) : bool := match o with Interrupt _ => true | _ => false end.
Definition proper_outcome (N : nat) (o : algo_outcome) : Prop :=
  forall s, found o = Some s -> s = [] \/ exists rs, s = encode rs /\ proper_solution N rs.

(** The jobs up to the first interrupted one. *)
Fixpoint until_interrupt {A} (stops : A -> bool) (jobs : list A) : list A :=
  match jobs with
  | [] => []
  | j :: rest => j :: (if stops j then [] else until_interrupt stops rest)
  end.

(** A truthful report on a job whose algorithm found [rs]: the solution reported has the same
    customers and as many routes, quality and number of routes are those of that solution, it is
    called feasible exactly if it is, and it is not worse than what was found. *)
Definition truthful (eps : Z) (o : options) (p : problem) (a : nat) (rs : list (list nat)) (stop : bool) (r : report) : Prop :=
  exists ns ok, r = Solved (p_file p) a (encode ns) ok (routes_cost (shown_matrix o p) ns) (length ns) stop /\
    Forall (fun r => r <> []) ns /\ length ns = length (driven rs) /\ Permutation (concat ns) (concat rs) /\
    (ok = true <-> covers (p_N p) ns /\ Forall (feasible (p_Dc p) (p_d p) (p_C p) (p_L p) eps eps) ns) /\
    (covers (p_N p) rs -> Forall (feasible (p_Dc p) (p_d p) (p_C p) (p_L p) eps eps) (driven rs) -> ok = true) /\
    routes_cost (shown_matrix o p) ns <= routes_cost (shown_matrix o p) rs.

Definition job_report (eps : Z) (o : options) (run : nat -> problem -> algo_outcome) (job : problem * nat) (r : report) : Prop :=
  let '(p, a) := job in
  if o_simulate o then r = Unsolved (p_file p) a false
  else match found (run a p) with
       | None | Some [] => r = Unsolved (p_file p) a (interrupted (run a p))
       | Some s => exists rs, s = encode rs /\ proper_solution (p_N p) rs /\ truthful eps o p a rs (interrupted (run a p)) r
       end.

(** Reports can be written: the minimal output, or there is a capacity. *)
Definition printable (o : options) (p : problem) : Prop := o_minimal o = true \/ limit_set (p_C p).

(** A job is interrupted. *)
Definition stops (o : options) (run : nat -> problem -> algo_outcome) (job : problem * nat) : bool :=
  negb (o_simulate o) && interrupted (run (snd job) (fst job)).
