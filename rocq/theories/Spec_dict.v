(** * Specification of the example with a dictionary (C127) *)
From Verif Require Import Spec Spec_savings Spec_all M_cli M_dict.

(** The data are consistent: one capacity for all vehicles, as many coordinates, demands, rows and columns, at least one, and
    a symmetric matrix. *)
Record consistent (x : data_dict) (C : Z) : Prop := {
  cs_some : dd_capacities x <> [];
  cs_same : forall c, In c (dd_capacities x) -> c = C;
  cs_rows : dd_matrix x <> [];
  cs_points : dd_points x = length (dd_matrix x);
  cs_demands : length (dd_demands x) = length (dd_matrix x);
  cs_square : forall row, In row (dd_matrix x) -> length row = length (dd_matrix x);
  cs_symmetric : forall i j row row', nth_error (dd_matrix x) i = Some row -> nth_error (dd_matrix x) j = Some row' ->
                 nth_error row j = nth_error row' i }.

(** The numbers describe a problem that can be solved: a depot with a customer, no negative number, nothing to carry to
    the depot and no way from it to itself, no customer who asks for more than a vehicle holds. *)
Record solvable (x : data_dict) (C eps : Z) : Prop := {
  sv_size : (2 <= length (dd_matrix x))%nat;
  sv_matrix : forall row v, In row (dd_matrix x) -> In v row -> 0 <= v;
  sv_demands : forall v, In v (dd_demands x) -> 0 <= v;
  sv_depot : hd_error (dd_demands x) = Some 0 /\ exists row, hd_error (dd_matrix x) = Some row /\ hd_error row = Some 0;
  sv_eps : 0 <= eps;
  sv_capacity : C = 0 \/ forall v, In v (dd_demands x) -> v <= C + eps }.

(** What an algorithm comes to that is first asked to minimize the number of routes, and if that does not return, not to. *)
Definition settles (call : bool -> nat -> option algo_outcome) (o : algo_outcome) : Prop :=
  (exists sol, o = Returns sol /\ ends_with (call true) o) \/
  (exists o1, (forall sol, o1 <> Returns sol) /\ ends_with (call true) o1 /\ ends_with (call false) o).

(** A row printed: a solution that serves every customer and overloads no vehicle, with its cost and its number of routes *)
Definition good_row {A} (N : nat) (D : matrix) (d : demands) (C : Z) (eps : Z) (a : A) (row : A * (Z * nat * list nat)) : Prop :=
  exists rs, serves N D d (Some C) None eps eps rs /\ row = (a, (routes_cost D rs, length rs, encode rs)).
