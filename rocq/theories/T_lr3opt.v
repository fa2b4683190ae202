(** * Property C32: the constraint checker and the repair step of lr3opt *)
From Verif Require Import Spec Spec_inter Spec_savings Spec_lr3opt PyBase M_util M_lr3opt P_lr3opt.

(** The repair keeps the order of the customers and adds depot visits only; every route of the
    result is feasible if every customer can be served alone. *)
Theorem C32_repair :
  forall ceps seps D d C L rs,
    Forall customers_only rs -> concat rs <> [] ->
    Forall (fun n => feasible D d C L ceps seps [n]) (concat rs) ->
    exists rs', force_feasible ceps seps (encode rs) D d C L = Some (encode rs') /\
      concat rs' = concat rs /\ Forall (fun r => r <> []) rs' /\ Forall (feasible D d C L ceps seps) rs'.
Proof. exact repair. Qed.
Print Assumptions C32_repair.

(** Every route is cut by itself, and only where the next customer does not fit. *)
Theorem C32_no_needless_visits :
  forall ceps seps D d C L rs,
    Forall customers_only rs -> concat rs <> [] ->
    Forall (fun n => feasible D d C L ceps seps [n]) (concat rs) ->
    exists pss, force_feasible ceps seps (encode rs) D d C L = Some (encode (concat pss)) /\
      Forall2 (fun r ps => concat ps = r /\ Forall (fun p => p <> []) ps /\
                           Forall (feasible D d C L ceps seps) ps /\ needed_splits D d C L ceps seps ps) rs pss.
Proof. exact force_general. Qed.
Print Assumptions C32_no_needless_visits.

(** A solution all of whose partial routes are feasible is only freed of empty routes. *)
Theorem C32_feasible_unchanged :
  forall ceps seps D d C L rs,
    Forall customers_only rs -> concat rs <> [] ->
    Forall (fun n => feasible D d C L ceps seps [n]) (concat rs) ->
    (forall r a b, In r rs -> r = a ++ b -> feasible D d C L ceps seps a) ->
    force_feasible ceps seps (encode rs) D d C L = Some (encode (filter nonempty rs)).
Proof. exact unchanged. Qed.
Print Assumptions C32_feasible_unchanged.

(** Without customers there is no solution. *)
Theorem C32_no_customers :
  forall ceps seps D d C L rs,
    Forall customers_only rs -> concat rs = [] -> force_feasible ceps seps (encode rs) D d C L = None.
Proof. exact no_customers. Qed.
Print Assumptions C32_no_customers.

(** The checker accepts exactly the solutions with feasible routes. *)
Theorem C32_checker :
  forall ceps seps D d C L, nonneg_matrix D -> (forall n, 0 <= d n) ->
    forall rs, Forall customers_only rs -> within C ceps 0 ->
    (check_CL_constraints ceps seps (encode rs) D d C L = true <-> Forall (feasible D d C L ceps seps) rs).
Proof. exact check_encode. Qed.
Print Assumptions C32_checker.

(** Six customers on a line, one route too long and too full. *)
Definition ex_line : matrix := fun i j => Z.abs (Z.of_nat i - Z.of_nat j).
Example C32_hypotheses :
  Forall customers_only [[1; 2; 3]; []; [4; 5; 6]]%nat /\
  Forall (fun n => feasible ex_line (fun _ => 1) (Some 2) (Some 12) 0 0 [n]) (concat [[1; 2; 3]; []; [4; 5; 6]]%nat) /\
  nonneg_matrix ex_line.
Proof.
  split; [|split].
  - repeat constructor; discriminate.
  - repeat constructor; cbn; lia.
  - intros i j. unfold ex_line. lia.
Qed.
Example C32_run :
  force_feasible 0 0 (encode [[1; 2; 3]; []; [4; 5; 6]]%nat) ex_line (fun _ => 1) (Some 2) (Some 12)
  = Some (encode [[1; 2]; [3]; [4; 5]; [6]]%nat) /\
  check_CL_constraints 0 0 (encode [[1; 2; 3]; []; [4; 5; 6]]%nat) ex_line (fun _ => 1) (Some 2) (Some 12) = false /\
  check_CL_constraints 0 0 (encode [[1; 2]; [3]; [4; 5]; [6]]%nat) ex_line (fun _ => 1) (Some 2) (Some 12) = true.
Proof. split; [|split]; reflexivity. Qed.
