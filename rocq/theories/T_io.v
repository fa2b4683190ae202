(** * C33-C36, C46: instance and solution files *)
From Verif Require Import Spec PyBase M_text M_io Spec_io P_io2 P_io3 P_io4 P_io5 P_io6 P_io7.
Open Scope Z_scope.

(** ** C33: reading explicit matrices *)
Theorem C33_matrix_read : forall (V : Type) (parse_float : text -> option V) (vzero : V) (geo : V -> V)
    (calcD : option text -> list (option (V * V)) -> option (nat * (nat -> nat -> V)))
    pre n f body rest M,
  (1 <= n)%nat -> Forall inert_header pre -> Forall plain body -> storable vzero f n M ->
  Forall2 (fun t rc => parse_float t = Some (M (fst rc) (snd rc))) (flat_map split body) (cells f n) ->
  exists D, read_TSPLIB_CVRP parse_float vzero geo calcD (weight_file pre n f body rest) =
            Ok (mkproblem (Z.of_nat n - 1) None None None (Some (n, D)) None (Some (str "EXPLICIT"))) /\
            forall a b, (a < n)%nat -> (b < n)%nat -> D a b = M a b.
Proof. intros V. exact c33_reads. Qed.
Print Assumptions C33_matrix_read.

Theorem C33_wrong_length_rejected : forall (V : Type) (parse_float : text -> option V) (vzero : V) (geo : V -> V)
    (calcD : option text -> list (option (V * V)) -> option (nat * (nat -> nat -> V)))
    pre n f body rest,
  (1 <= n)%nat -> Forall inert_header pre -> Forall plain body ->
  List.length (flat_map split body) <> List.length (cells f n) ->
  exists e, read_TSPLIB_CVRP parse_float vzero geo calcD (weight_file pre n f body rest) = Raise e.
Proof. intros V. exact c33_rejects. Qed.
Print Assumptions C33_wrong_length_rejected.

Definition no_calc : option text -> list (option (Z * Z)) -> option (nat * (nat -> nat -> Z)) := fun _ _ => None.
Definition readZ := read_TSPLIB_CVRP parse_int 0 (fun z => z) no_calc.
Definition abs_diff (a b : nat) : Z := Z.abs (Z.of_nat (a * a) - Z.of_nat (b * b)).
Definition matrix_of (o : outcome (@problem Z)) : list (list Z) :=
  match o with
  | Ok P => match pb_D P with Some (n, D) => map (fun r => map (D r) (seq 0 n)) (seq 0 n) | None => [] end
  | Raise _ => []
  end.

Example C33_reads_lower_row :
  Forall inert_header [str "NAME : four"] /\ Forall plain [str "1 4"; str "3 9"; []; str "8 5"] /\
  storable 0 LowerRow 4 abs_diff /\
  Forall2 (fun t rc => parse_int t = Some (abs_diff (fst rc) (snd rc))) (flat_map split [str "1 4"; str "3 9"; []; str "8 5"]) (cells LowerRow 4) /\
  matrix_of (readZ (weight_file [str "NAME : four"] 4 LowerRow [str "1 4"; str "3 9"; []; str "8 5"] []))
    = [[0; 1; 4; 9]; [1; 0; 3; 8]; [4; 3; 0; 5]; [9; 8; 5; 0]].
Proof.
  split; [|split; [|split; [|split]]].
  - constructor; [|constructor]. split.
    + repeat (constructor; [discriminate|]). constructor.
    + exists (str "NAME "), (str " four"). repeat split; try discriminate. repeat constructor.
  - repeat (apply Forall_cons; [repeat (apply Forall_cons; [split; [discriminate|split; [discriminate|vm_compute; left; repeat constructor]]|]); apply Forall_nil|]). apply Forall_nil.
  - split; [intros a b _ _; unfold abs_diff; rewrite <- Z.abs_opp; f_equal; ring|]. intros _ a _. unfold abs_diff. now rewrite Z.sub_diag.
  - repeat (apply Forall2_cons; [reflexivity|]). apply Forall2_nil.
  - vm_compute. reflexivity.
Qed.
Example C33_rejects_short :
  readZ (weight_file [] 4 LowerRow [str "1 4 3"] []) = Raise IOError /\
  readZ (weight_file [] 3 UpperRow [str "1 4 3 7"] []) = Raise IndexError.
Proof. vm_compute. split; reflexivity. Qed.

(** ** C34: writing and reading *)
Theorem C34_tsp_round_trip : forall (V : Type) (print_val : V -> text) (parse_float : text -> option V) (of_int : Z -> V)
    (vzero : V) (geo : V -> V) (calcD : option text -> list (option (V * V)) -> option (nat * (nat -> nat -> V))),
  number_text print_val parse_float of_int ->
  forall n D d C L sel,
  (1 <= List.length (selection n sel))%nat -> symmetric_on vzero D (selection n sel) ->
  let m := List.length (selection n sel) in
  exists D', read_TSPLIB_CVRP parse_float vzero geo calcD (write_TSPLIB_file print_val false n D d C L sel) =
    Ok (mkproblem (Z.of_nat m - 1) None None None (Some (m, D')) None (Some (str "EXPLICIT"))) /\
    forall a b, (a < m)%nat -> (b < m)%nat -> D' a b = D (nth a (selection n sel) 0%nat) (nth b (selection n sel) 0%nat).
Proof. intros V. exact c34_tsp_sym. Qed.
Print Assumptions C34_tsp_round_trip.

Theorem C34_vrp_round_trip : forall (V : Type) (print_val : V -> text) (parse_float : text -> option V) (of_int : Z -> V)
    (vzero : V) (geo : V -> V) (calcD : option text -> list (option (V * V)) -> option (nat * (nat -> nat -> V))),
  number_text print_val parse_float of_int ->
  forall n D d C L,
  (1 <= n)%nat -> (d = [] \/ List.length d = n) -> symmetric_on vzero D (seq 0 n) ->
  exists D', read_TSPLIB_CVRP parse_float vzero geo calcD (write_TSPLIB_file print_val true n D d C L []) =
    Ok (mkproblem (Z.of_nat n - 1) None None (Some (map (fun q => Some (of_int q)) (demand_values n d))) (Some (n, D'))
          (written_C true n C) (Some (str "EXPLICIT"))) /\
    forall a b, (a < n)%nat -> (b < n)%nat -> D' a b = D a b.
Proof. intros V. exact c34_vrp_sym. Qed.
Print Assumptions C34_vrp_round_trip.

(** Of a matrix that is not symmetric only the upper triangle survives. *)
Theorem C34_upper_triangle_written : forall (V : Type) (print_val : V -> text) (parse_float : text -> option V) (of_int : Z -> V)
    (vzero : V) (geo : V -> V) (calcD : option text -> list (option (V * V)) -> option (nat * (nat -> nat -> V))),
  number_text print_val parse_float of_int ->
  forall n D d C L sel,
  (1 <= List.length (selection n sel))%nat ->
  let m := List.length (selection n sel) in
  exists D', read_TSPLIB_CVRP parse_float vzero geo calcD (write_TSPLIB_file print_val false n D d C L sel) =
    Ok (mkproblem (Z.of_nat m - 1) None None None (Some (m, D')) None (Some (str "EXPLICIT"))) /\
    forall a b, (a < m)%nat -> (b < m)%nat -> D' a b = upper_part vzero D (selection n sel) a b.
Proof. intros V. exact c34_tsp. Qed.
Print Assumptions C34_upper_triangle_written.

(** The .vrp file of a proper selection cannot be read: it has more demands than nodes. *)
Theorem C34_vrp_selection_refuted : forall (V : Type) (print_val : V -> text) (parse_float : text -> option V) (of_int : Z -> V)
    (vzero : V) (geo : V -> V) (calcD : option text -> list (option (V * V)) -> option (nat * (nat -> nat -> V))),
  number_text print_val parse_float of_int ->
  forall n D d C L sel,
  (1 <= List.length (selection n sel) < n)%nat -> (d = [] \/ List.length d = n) ->
  read_TSPLIB_CVRP parse_float vzero geo calcD (write_TSPLIB_file print_val true n D d C L sel) = Raise IndexError.
Proof. intros V. exact c34_vrp_selection. Qed.
Print Assumptions C34_vrp_selection_refuted.

Example C34_numbers : number_text print_int parse_int (fun z => z).
Proof. exact number_text_Z. Qed.
Example C34_runs :
  symmetric_on 0 abs_diff (selection 4 [3; 1; 2]%nat) /\
  matrix_of (readZ (write_TSPLIB_file print_int false 4 abs_diff [] None None [3; 1; 2]%nat)) = [[0; 8; 5]; [8; 0; 3]; [5; 3; 0]] /\
  matrix_of (readZ (write_TSPLIB_file print_int true 3 abs_diff [0; 5; 7] (Some 10) None [])) = [[0; 1; 4]; [1; 0; 3]; [4; 3; 0]] /\
  match readZ (write_TSPLIB_file print_int true 3 abs_diff [0; 5; 7] (Some 10) None []) with
  | Ok P => (pb_size P, pb_demands P, pb_C P) = (2, Some [Some 0; Some 5; Some 7], Some 10)
  | Raise _ => False
  end /\
  readZ (write_TSPLIB_file print_int true 4 abs_diff [] None None [3; 1; 2]%nat) = Raise IndexError.
Proof.
  split; [|vm_compute; repeat split].
  split; [intros a b _ _; unfold abs_diff; rewrite <- Z.abs_opp; f_equal; ring|]. intros a _. unfold abs_diff. now rewrite Z.sub_diag.
Qed.

(** ** C35: the depot section *)
(** Missing: the last row and column, which keep the numbering of the file (the last conjunct), and
    a depot that is the last node. *)
Theorem C35_relocation_partial : forall (V : Type) (parse_float : text -> option V) (vzero : V) (geo : V -> V)
    (calcD : option text -> list (option (V * V)) -> option (nat * (nat -> nat -> V)))
    pre P n D k,
  Forall ordinary pre ->
  read_TSPLIB_CVRP parse_float vzero geo calcD (file_of (pre ++ [str "EOF"])) = Ok P ->
  pb_D P = Some (n, D) -> pb_size P = Z.of_nat n - 1 ->
  pb_ewt P <> Some (str "GEO") -> list_fits n (pb_demands P) -> list_fits n (pb_points P) -> list_fits n (pb_dd P) ->
  (1 <= k < n - 1)%nat ->
  exists P' D', read_TSPLIB_CVRP parse_float vzero geo calcD (file_of (pre ++ depot_lines k)) = Ok P' /\
    pb_size P' = pb_size P /\ pb_C P' = pb_C P /\ pb_ewt P' = pb_ewt P /\
    list_moved k (pb_demands P) (pb_demands P') /\ list_moved k (pb_points P) (pb_points P') /\ list_moved k (pb_dd P) (pb_dd P') /\
    pb_D P' = Some (n, D') /\
    (forall r c, (r < n - 1)%nat -> (c < n - 1)%nat -> D' r c = D (old_index k r) (old_index k c)) /\
    (forall i, (i < n)%nat -> D' i (n - 1)%nat = D i (n - 1)%nat /\ D' (n - 1)%nat i = D (n - 1)%nat i).
Proof. intros V. exact c35_partial. Qed.
Print Assumptions C35_relocation_partial.

(** Every entry, for every depot. *)
Theorem C35_relocation_entries : forall (V : Type) (parse_float : text -> option V) (vzero : V) (geo : V -> V)
    (calcD : option text -> list (option (V * V)) -> option (nat * (nat -> nat -> V)))
    pre P n D k,
  Forall ordinary pre ->
  read_TSPLIB_CVRP parse_float vzero geo calcD (file_of (pre ++ [str "EOF"])) = Ok P ->
  pb_D P = Some (n, D) -> pb_size P = Z.of_nat n - 1 ->
  pb_ewt P <> Some (str "GEO") -> list_fits n (pb_demands P) -> list_fits n (pb_points P) -> list_fits n (pb_dd P) ->
  (1 <= k < n)%nat ->
  exists P' D', read_TSPLIB_CVRP parse_float vzero geo calcD (file_of (pre ++ depot_lines k)) = Ok P' /\
    pb_size P' = pb_size P /\ pb_C P' = pb_C P /\ pb_ewt P' = pb_ewt P /\
    list_moved k (pb_demands P) (pb_demands P') /\ list_moved k (pb_points P) (pb_points P') /\ list_moved k (pb_dd P) (pb_dd P') /\
    pb_D P' = Some (n, D') /\
    (forall r c, (r < n)%nat -> (c < n)%nat -> D' r c =
       if (r <? n - 1)%nat then (if (old_index k c <? n - 1)%nat then D (old_index k r) (old_index k c) else D r (n - 1)%nat)
       else (if (c <? n - 1)%nat then D (old_index k r) c else D r c)).
Proof. intros V. exact c35. Qed.
Print Assumptions C35_relocation_entries.

(** A file with two depots is refused. *)
Theorem C35_two_depots_rejected : forall (V : Type) (parse_float : text -> option V) (vzero : V) (geo : V -> V)
    (calcD : option text -> list (option (V * V)) -> option (nat * (nat -> nat -> V)))
    pre P k k',
  Forall ordinary pre ->
  read_TSPLIB_CVRP parse_float vzero geo calcD (file_of (pre ++ [str "EOF"])) = Ok P ->
  read_TSPLIB_CVRP parse_float vzero geo calcD (file_of (pre ++ two_depots_lines k k')) = Raise IOError.
Proof. intros V. exact c35_two. Qed.
Print Assumptions C35_two_depots_rejected.

Definition depot_file : list text :=
  [ str "DIMENSION : 4"; str "EDGE_WEIGHT_TYPE : EXPLICIT"; str "EDGE_WEIGHT_FORMAT : LOWER_ROW"; str "EDGE_WEIGHT_SECTION";
    str "1"; str "4 3"; str "9 8 5" ].
Example C35_runs :
  Forall ordinary depot_file /\
  matrix_of (readZ (file_of (depot_file ++ [str "EOF"]))) = [[0; 1; 4; 9]; [1; 0; 3; 8]; [4; 3; 0; 5]; [9; 8; 5; 0]] /\
  matrix_of (readZ (file_of (depot_file ++ depot_lines 1))) = [[0; 1; 3; 9]; [1; 0; 4; 8]; [3; 4; 0; 5]; [9; 8; 5; 0]].
Proof.
  split; [|vm_compute; split; reflexivity].
  repeat (apply Forall_cons; [split; [repeat (apply Forall_cons; [discriminate|]); apply Forall_nil|split; reflexivity]|]). apply Forall_nil.
Qed.

Example C35_two_depots_runs : readZ (file_of (depot_file ++ two_depots_lines 0 2)) = Raise IOError.
Proof. vm_compute. reflexivity. Qed.

(** The distance from the relocated depot to the last node is wrong. *)
Theorem C35_relocation_refuted : exists pre P n D k P' D',
  Forall ordinary pre /\
  readZ (file_of (pre ++ [str "EOF"])) = Ok P /\ pb_D P = Some (n, D) /\ (1 <= k < n)%nat /\
  readZ (file_of (pre ++ depot_lines k)) = Ok P' /\ pb_D P' = Some (n, D') /\
  (exists a b, (a < n)%nat /\ (b < n)%nat /\ D' a b <> D (old_index k a) (old_index k b)).
Proof.
  exists depot_file. destruct (readZ (file_of (depot_file ++ [str "EOF"]))) as [P|e] eqn:E; [|vm_compute in E; discriminate].
  exists P. destruct (readZ (file_of (depot_file ++ depot_lines 1))) as [P'|e] eqn:E'; [|vm_compute in E'; discriminate].
  assert (HP : matrix_of (Ok P) = [[0; 1; 4; 9]; [1; 0; 3; 8]; [4; 3; 0; 5]; [9; 8; 5; 0]]) by (rewrite <- E; exact (proj1 (proj2 C35_runs))).
  assert (HP' : matrix_of (Ok P') = [[0; 1; 3; 9]; [1; 0; 4; 8]; [3; 4; 0; 5]; [9; 8; 5; 0]]) by (rewrite <- E'; exact (proj2 (proj2 C35_runs))).
  unfold matrix_of in HP, HP'. destruct (pb_D P) as [[n D]|]; [|discriminate]. destruct (pb_D P') as [[n' D']|] eqn:ED'; [|discriminate].
  assert (n = 4%nat) by (apply (f_equal (@List.length _)) in HP; rewrite map_length, seq_length in HP; exact HP). subst n.
  assert (n' = 4%nat) by (apply (f_equal (@List.length _)) in HP'; rewrite map_length, seq_length in HP'; exact HP'). subst n'.
  exists 4%nat, D, 1%nat, P', D'. split; [exact (proj1 C35_runs)|]. split; [reflexivity|]. split; [reflexivity|].
  split; [split; repeat constructor|]. split; [exact E'|]. split; [exact ED'|].
  exists 0%nat, 3%nat. split; [repeat constructor|]. split; [repeat constructor|]. cbn in HP, HP' |- *. injection HP as; injection HP' as. congruence.
Qed.
Print Assumptions C35_relocation_refuted.

(** ** C36: solution files *)
Theorem C36_vrph_decodes : forall rs, Forall customers_only rs ->
  exists n l, as_VRPH_solution (encode rs) = Ok (n :: l) /\ vrph_routes (n :: l) = filter nonempty rs /\
    (forall x, In x (concat rs) -> Z.of_nat x < n) /\
    (n = 1 \/ exists x, In x (concat rs) /\ n = Z.of_nat x + 1).
Proof. exact c36_vrph. Qed.
Print Assumptions C36_vrph_decodes.

Theorem C36_opt_text : forall cost rs, Forall customers_only rs ->
  as_OPT_solution cost (encode rs) = file_of (route_lines 1 (filter nonempty rs) ++ [str "Cost : " ++ print_cost cost]).
Proof. exact c36_opt_text. Qed.
Print Assumptions C36_opt_text.

(** With the cost line the reader wants, the routes and the cost come back; the number of routes is
    the one of the file name, or 0. *)
Theorem C36_opt_read_partial : forall (V : Type) (parse_float : text -> option V) rs cost name_k, Forall customers_only rs ->
  read_OPT_CVRP parse_float true name_k (file_of (route_lines 1 (filter nonempty rs) ++ [str "Cost " ++ print_int cost])) =
  Ok (map Z.of_nat (encode (filter nonempty rs)), Some (inl cost), match name_k with Some k => k | None => 0 end).
Proof. intros V. exact c36_opt_read. Qed.
Print Assumptions C36_opt_read_partial.

(** No solution written is read back. *)
Theorem C36_opt_round_trip_refuted : forall (V : Type) (parse_float : text -> option V) cost sol name_k,
  (forall t, cost = CostFrac t -> t <> [] /\ Forall (fun c => is_space c = false) t) ->
  read_OPT_CVRP parse_float true name_k (as_OPT_solution cost sol) = Raise ValueError.
Proof. intros V. exact c36_opt_refuted. Qed.
Print Assumptions C36_opt_round_trip_refuted.

Example C36_runs :
  as_VRPH_solution (encode [[3; 1]; []; [2]]%nat) = Ok [4; -3; 1; -2; 0] /\
  vrph_routes [4; -3; 1; -2; 0] = [[3; 1]; [2]]%nat /\
  as_OPT_solution (CostInt 12) (encode [[3; 1]; []; [2]]%nat) =
    str "Route #1: 3" ++ [tab] ++ str "1" ++ [newline] ++ str "Route #2: 2" ++ [newline] ++ str "Cost : 12" ++ [newline] /\
  read_OPT_CVRP parse_int true None (file_of (route_lines 1 [[3; 1]; [2]]%nat ++ [str "Cost 12"])) = Ok ([0; 3; 1; 0; 2; 0], Some (inl 12), 0) /\
  read_OPT_CVRP parse_int true None (as_OPT_solution (CostInt 12) (encode [[3; 1]; []; [2]]%nat)) = Raise ValueError.
Proof. vm_compute. repeat split. Qed.

(** ** C46: additional constraints *)
Theorem C46_distance_limit_read_back : forall (V : Type) (parse_float : text -> option V) (anum_eqb : @anum V -> @anum V -> bool)
    (print_val : V -> text) (of_int : Z -> V), number_text print_val parse_float of_int ->
  forall n D d C L sel,
  read_additional_constraints parse_float anum_eqb (write_TSPLIB_file print_val true n D d C L sel) =
  Ok (None, match L with Some l => if l =? 0 then None else Some (AInt l) | None => None end, None).
Proof. intros V. exact c46_distance. Qed.
Print Assumptions C46_distance_limit_read_back.

(** A service time section is understood if every node listed, the depot too, has the same time and
    the file ends with the section. *)
Theorem C46_service_times_partial : forall (V : Type) (parse_float : text -> option V) (anum_eqb : @anum V -> @anum V -> bool) pre ps s,
  Forall quiet_line pre -> anum_eqb (AInt s) (AInt s) = true -> ps <> [] -> Forall (fun p => snd p = s) ps ->
  read_additional_constraints parse_float anum_eqb (file_of (pre ++ str "SVC_TIME_SECTION" :: map service_line ps)) =
  Ok (None, None, Some (AInt s)).
Proof. intros V. exact c46_service. Qed.
Print Assumptions C46_service_times_partial.

(** With a depot time of 0 and the same non-zero time for all customers it is rejected. *)
Theorem C46_service_times_refuted : forall (V : Type) (parse_float : text -> option V) (anum_eqb : @anum V -> @anum V -> bool) pre s ps rest,
  Forall quiet_line pre -> anum_eqb (AInt s) (AInt 0) = false -> Forall one_line rest ->
  read_additional_constraints parse_float anum_eqb
    (file_of (pre ++ str "SVC_TIME_SECTION" :: map service_line ((1, 0) :: (2, s) :: ps) ++ rest)) = Raise IOError.
Proof. intros V. exact c46_service_depot. Qed.
Print Assumptions C46_service_times_refuted.

(** The EOF line after the section is taken for a service time. *)
Theorem C46_service_times_eof_refuted : forall (V : Type) (parse_float : text -> option V) (anum_eqb : @anum V -> @anum V -> bool) pre ps s rest,
  Forall quiet_line pre -> anum_eqb (AInt s) (AInt s) = true -> ps <> [] -> Forall (fun p => snd p = s) ps -> Forall one_line rest ->
  read_additional_constraints parse_float anum_eqb
    (file_of (pre ++ str "SVC_TIME_SECTION" :: map service_line ps ++ str "EOF" :: rest)) = Raise ValueError.
Proof. intros V. exact c46_service_eof. Qed.
Print Assumptions C46_service_times_eof_refuted.

Definition int_eqb (a b : @anum Z) : bool := match a, b with AInt x, AInt y | AFloat x, AFloat y | AInt x, AFloat y | AFloat x, AInt y => x =? y end.
Example C46_runs :
  Forall quiet_line [str "DIMENSION : 3"] /\
  read_additional_constraints parse_int int_eqb (write_TSPLIB_file print_int true 3 abs_diff [] None (Some 20) []) = Ok (None, Some (AInt 20), None) /\
  read_additional_constraints parse_int int_eqb (file_of [str "DIMENSION : 3"; str "SVC_TIME_SECTION"; str "1 0"; str "2 10"; str "3 10"]) = Raise IOError /\
  read_additional_constraints parse_int int_eqb (file_of [str "DIMENSION : 3"; str "SVC_TIME_SECTION"; str "2 10"; str "3 10"]) = Ok (None, None, Some (AInt 10)) /\
  read_additional_constraints parse_int int_eqb (file_of [str "SVC_TIME_SECTION"; str "2 10"; str "3 10"; str "EOF"]) = Raise ValueError.
Proof.
  split; [|vm_compute; repeat split].
  constructor; [|constructor]. split; [repeat (apply Forall_cons; [discriminate|]); apply Forall_nil|repeat constructor].
Qed.
