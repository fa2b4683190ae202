(** * Properties C37, C38, C45: 3-opt* on whole solutions *)
From Verif Require Import Spec Spec_inter Spec_3optstar PyBase M_util M_3optstar P_3optstar7.

(** The tour returned has the same customers, costs exactly [delta] more, and [delta] beats the
    given bound by more than the tolerance. *)
Theorem C37_kept_and_priced :
  forall ceps seps D d C L first best rs sol' delta,
    0 <= seps -> symmetric D -> D 0%nat 0%nat = 0 -> Forall customers_only rs ->
    do_3optstar_move ceps seps (encode rs) D d C L first best = Some (sol', delta) ->
    exists rs', sol' = encode rs' /\ Forall customers_only rs' /\ Permutation (concat rs') (concat rs) /\
      path_cost D sol' = path_cost D (encode rs) + delta /\
      delta + seps < match best with Some b => b | None => 0 end.
Proof. exact kept_and_priced. Qed.
Print Assumptions C37_kept_and_priced.

(** It is a reconnection of the given tour after the removal of three edges, freed of some empty routes. *)
Theorem C37_reconnection :
  forall ceps seps D d C L first best rs sol' delta,
    0 <= seps -> Forall customers_only rs ->
    do_3optstar_move ceps seps (encode rs) D d C L first best = Some (sol', delta) ->
    exists rs' rs'', sol' = encode rs' /\ neighbour_3optstar (encode rs) (encode rs'') /\
      Forall customers_only rs' /\ Forall customers_only rs'' /\
      filter nonempty rs' = filter nonempty rs''.
Proof. exact reconnection. Qed.
Print Assumptions C37_reconnection.

(** The customers are kept with every move checker, in particular with the Lagrangean one of lr3opt. *)
Theorem C37_any_checker :
  forall check D d rs first best sol' delta,
    Forall customers_only rs ->
    do_3optstar_with check (encode rs) D d first best = Some (sol', delta) ->
    exists rs', sol' = encode rs' /\ Forall customers_only rs' /\ Permutation (concat rs') (concat rs).
Proof. exact any_checker. Qed.
Print Assumptions C37_any_checker.

(** Feasible routes stay feasible. *)
Theorem C38_feasible :
  forall ceps seps D d C L first best rs sol' delta,
    0 <= seps -> symmetric D -> Forall customers_only rs ->
    Forall (feasible D d C L ceps seps) rs ->
    do_3optstar_move ceps seps (encode rs) D d C L first best = Some (sol', delta) ->
    exists rs', sol' = encode rs' /\ Forall customers_only rs' /\ Forall (feasible D d C L ceps seps) rs'.
Proof. exact stays_feasible. Qed.
Print Assumptions C38_feasible.

(** No move is returned only if no feasible neighbour is better by more than the tolerance. *)
Theorem C45_local_optimum :
  forall ceps seps D d C L first rs,
    0 <= seps -> symmetric D -> nonneg_matrix D -> (forall n, 0 <= d n) -> Forall customers_only rs ->
    do_3optstar_move ceps seps (encode rs) D d C L first None = None ->
    forall rs', Forall customers_only rs' -> neighbour_3optstar (encode rs) (encode rs') ->
      Forall (feasible D d C L ceps seps) rs' -> routes_cost D rs <= routes_cost D rs' + seps.
Proof. exact local_optimum. Qed.
Print Assumptions C45_local_optimum.

(** Under best accept no feasible neighbour is better than the one returned by more than the tolerance. *)
Theorem C45_best_accept :
  forall ceps seps D d C L best rs sol' delta,
    0 <= seps -> symmetric D -> nonneg_matrix D -> (forall n, 0 <= d n) -> Forall customers_only rs ->
    do_3optstar_move ceps seps (encode rs) D d C L false best = Some (sol', delta) ->
    forall rs', Forall customers_only rs' -> neighbour_3optstar (encode rs) (encode rs') ->
      Forall (feasible D d C L ceps seps) rs' -> routes_cost D rs + delta <= routes_cost D rs' + seps.
Proof. exact best_accept. Qed.
Print Assumptions C45_best_accept.

(** Six customers on a line, two crossing routes with three customers each. *)
Definition ex3_line : matrix := fun i j => Z.abs (Z.of_nat i - Z.of_nat j).
Example C37_hypotheses :
  symmetric ex3_line /\ nonneg_matrix ex3_line /\ ex3_line 0%nat 0%nat = 0 /\
  Forall customers_only [[1; 5; 3]; [4; 2; 6]]%nat /\
  Forall (feasible ex3_line (fun _ => 1) (Some 3) (Some 16) 0 0) [[1; 5; 3]; [4; 2; 6]]%nat.
Proof.
  split; [|split; [|split; [|split]]].
  - intros i j. unfold ex3_line. lia.
  - intros i j. unfold ex3_line. lia.
  - reflexivity.
  - repeat constructor; discriminate.
  - repeat constructor; cbn; lia.
Qed.
Example C37_move :
  do_3optstar_move 0 0 (encode [[1; 5; 3]; [4; 2; 6]]%nat) ex3_line (fun _ => 1) (Some 3) (Some 16) false None <> None /\
  do_3optstar_move 0 0 (encode [[1; 5; 3]; [4; 2; 6]]%nat) ex3_line (fun _ => 1) (Some 3) None false None <> None.
Proof. split; vm_compute; discriminate. Qed.
Example C45_optimum :
  do_3optstar_move 0 0 (encode [[1; 2; 3]; [4; 5; 6]]%nat) ex3_line (fun _ => 1) (Some 3) None false None = None.
Proof. vm_compute. reflexivity. Qed.
