(** * Theorems: files with coordinates (C124, C125) *)
From Verif Require Import Spec PyBase M_text M_io Spec_io Spec_coord M_breedam P_text P_io2 P_coord P_coord2.
From Coq Require Import Permutation.

(** C124: what is read from a converted file of van Breedam is what the file says: a node per line of ten
    integers, in order, with its place and demand; the capacity goes with the file's name. *)
Theorem C124_converted : forall (V : Type) (parse_float : text -> option V) (of_int : Z -> V),
  (forall z, parse_float (print_int z) = Some (of_int z)) ->
  forall (vzero : V) (geo : V -> V) calcD name lines rows q D,
  one_line name -> Forall one_line lines -> Forall2 line_ints lines rows -> capacity_of name q ->
  calcD (Some (str "EUC_2D")) (map (fun s => Some (of_int (fst (fst s)), of_int (snd (fst s)))) (stops_of rows)) = Some D ->
  exists t, breedam_to_tsplib95 name (file_of lines) = Ok t /\
  read_TSPLIB_CVRP parse_float vzero geo calcD t =
  Ok (mkproblem (Z.of_nat (List.length (stops_of rows)) - 1)
        (Some (map (fun s => Some (of_int (fst (fst s)), of_int (snd (fst s)))) (stops_of rows))) None
        (Some (map (fun s => Some (of_int (snd s))) (stops_of rows))) (Some D) (Some q) (Some (str "EUC_2D"))).
Proof. intros V pf oi H vzero geo calcD name lines rows q D. exact (c124_van pf oi H vzero geo calcD name lines rows q D). Qed.
Print Assumptions C124_converted.

(** A word that is not an integer, on any line, is refused. *)
Theorem C124_refused : forall name lines, Forall one_line lines ->
  (exists l, In l lines /\ exists w, In w (split (filter printable l)) /\ parse_int w = None) ->
  breedam_to_tsplib95 name (file_of lines) = Raise ValueError.
Proof. exact c124_bad. Qed.
Print Assumptions C124_refused.

(** Two nodes, a line with too few numbers and the end-of-file character of the original files. *)
Definition van_lines : list text :=
  [str "2 100"; str " 0   50  50 0 0 0 0   0 0 0"; str "1 -10 7 0 0 0 0 10 3 1"; [ascii_of_nat 26]].
Definition van_rows : list (list Z) := [[2; 100]; [0; 50; 50; 0; 0; 0; 0; 0; 0; 0]; [1; -10; 7; 0; 0; 0; 0; 10; 3; 1]; []].
Definition some_calc (_ : option text) (l : list (option (Z * Z))) : option (nat * (nat -> nat -> Z)) := Some (List.length l, fun _ _ => 0).
Example C124_case : one_line (str "12G1.DAT") /\ Forall one_line van_lines /\ Forall2 line_ints van_lines van_rows /\
  capacity_of (str "12G1.DAT") 100 /\ stops_of van_rows = [((50, 50), 0); ((-10, 7), 10)].
Proof.
  split; [apply one_line_str; reflexivity|]. split; [repeat (apply Forall_cons; [apply one_line_str; reflexivity|]); apply Forall_nil|].
  split; [repeat (apply Forall2_cons; [reflexivity|]); apply Forall2_nil|]. split; [|reflexivity].
  apply Small. exists (str "G1"). split; [left|]; reflexivity.
Qed.
Example C124_runs :
  match breedam_to_tsplib95 (str "12G1.DAT") (file_of van_lines) with
  | Ok t => match read_TSPLIB_CVRP parse_int 0 (fun z => z) some_calc t with
            | Ok P => pb_points P = Some [Some (50, 50); Some (-10, 7)] /\ pb_demands P = Some [Some 0; Some 10] /\ pb_C P = Some 100
            | Raise _ => False end
  | Raise _ => False
  end.
Proof. vm_compute. repeat split. Qed.
Example C124_refused_case : breedam_to_tsplib95 (str "12G1.DAT") (file_of [str "1 2 x"]) = Raise ValueError.
Proof. apply C124_refused; [constructor; [apply one_line_str; reflexivity|constructor]|]. exists (str "1 2 x"). split; [now left|]. exists (str "x"). split; [right; right; left; reflexivity|reflexivity]. Qed.

(** C125: a file with the coordinates and demands of the nodes, in the order of their ids, is read with every
    node's own coordinates and demand.  Missing: other orders, which TSPLIB allows; see below. *)
Theorem C125_in_order_partial : forall (V : Type) (parse_float : text -> option V) (vzero : V) (geo : V -> V) calcD
  pre n ewt c lines points lines' loads D,
  Forall inert_header pre -> planar ewt ->
  Forall2 (point_line parse_float) lines points -> in_order n points ->
  Forall2 (load_line parse_float) lines' loads -> in_order n loads ->
  calcD (Some ewt) (map (fun e => Some (snd e)) points) = Some D ->
  exists P, read_TSPLIB_CVRP parse_float vzero geo calcD (coord_file pre n ewt c lines lines') = Ok P /\
  pb_size P = Z.of_nat n - 1 /\ stored_by_id points (pb_points P) /\ stored_by_id loads (pb_demands P) /\
  pb_D P = Some D /\ pb_C P = Some c /\ pb_ewt P = Some ewt.
Proof. intros V pf vzero geo calcD. exact (c125_in_order pf vzero geo calcD). Qed.
Print Assumptions C125_in_order_partial.

(** Whatever the ids are, the lines are taken in the order in which they come. *)
Theorem C125_by_position : forall (V : Type) (parse_float : text -> option V) (vzero : V) (geo : V -> V) calcD
  pre n ewt c lines points lines' loads D,
  Forall inert_header pre -> planar ewt ->
  Forall2 (point_line parse_float) lines points -> List.length points = n ->
  Forall2 (load_line parse_float) lines' loads -> List.length loads = n ->
  calcD (Some ewt) (map (fun e => Some (snd e)) points) = Some D ->
  read_TSPLIB_CVRP parse_float vzero geo calcD (coord_file pre n ewt c lines lines') =
  Ok (mkproblem (Z.of_nat n - 1) (Some (map (fun e => Some (snd e)) points)) None
        (Some (map (fun e => Some (snd e)) loads)) (Some D) (Some c) (Some ewt)).
Proof. intros V pf vzero geo calcD. exact (c125_by_position pf vzero geo calcD). Qed.
Print Assumptions C125_by_position.

(** With type GEO the coordinates are converted and only kept for display. *)
Theorem C125_geo : forall (V : Type) (parse_float : text -> option V) (vzero : V) (geo : V -> V) calcD
  pre n c lines points lines' loads D,
  Forall inert_header pre ->
  Forall2 (point_line parse_float) lines points -> List.length points = n ->
  Forall2 (load_line parse_float) lines' loads -> List.length loads = n ->
  calcD (Some (str "GEO")) (map (fun e => Some (geo (fst (snd e)), geo (snd (snd e)))) points) = Some D ->
  read_TSPLIB_CVRP parse_float vzero geo calcD (coord_file pre n (str "GEO") c lines lines') =
  Ok (mkproblem (Z.of_nat n - 1) None (Some (map (fun e => Some (geo (fst (snd e)), geo (snd (snd e)))) points))
        (Some (map (fun e => Some (snd e)) loads)) (Some D) (Some c) (Some (str "GEO"))).
Proof. intros V pf vzero geo calcD. exact (c125_geo pf vzero geo calcD). Qed.
Print Assumptions C125_geo.

Definition three_points : list text := [str "1 0 0"; str "2 5 0"; str "3 0 7"].
Definition three_nodes : list (Z * (Z * Z)) := [(1, (0, 0)); (2, (5, 0)); (3, (0, 7))].
Example C125_case : Forall2 (point_line parse_int) three_points three_nodes /\ in_order 3 three_nodes /\ planar (str "CEIL_2D").
Proof.
  split; [|split; [reflexivity|cbn; tauto]].
  repeat (apply Forall2_cons; [split; [|repeat eexists; vm_compute; reflexivity]|]); try apply Forall2_nil;
    repeat (apply Forall_cons; [repeat split; try discriminate; left; vm_compute; repeat constructor|]); apply Forall_nil.
Qed.

(** REFUTED: with the demands of the nodes 2 and 3 in the other order, each node gets the other one's demand,
    and nothing is reported. *)
Definition swapped_loads : list (Z * Z) := [(1, 0); (3, 30); (2, 20)].
Theorem C125_by_id_refuted : exists pre n ewt c lines points lines' loads,
  Forall inert_header pre /\ planar ewt /\
  Forall2 (point_line parse_int) lines points /\ each_id_once n points /\
  Forall2 (load_line parse_int) lines' loads /\ each_id_once n loads /\
  forall geo calcD D, calcD (Some ewt) (map (fun e => Some (snd e)) points) = Some D ->
  exists P, read_TSPLIB_CVRP parse_int 0 geo calcD (coord_file pre n ewt c lines lines') = Ok P /\
  stored_by_id points (pb_points P) /\ ~ stored_by_id loads (pb_demands P).
Proof.
  exists [], 3%nat, (str "EUC_2D"), 50, three_points, three_nodes, [str "1 0"; str "3 30"; str "2 20"], swapped_loads.
  assert (HL : Forall2 (load_line parse_int) [str "1 0"; str "3 30"; str "2 20"] swapped_loads).
  { repeat (apply Forall2_cons; [split; [|repeat eexists; vm_compute; reflexivity]|]); try apply Forall2_nil;
      repeat (apply Forall_cons; [repeat split; try discriminate; left; vm_compute; repeat constructor|]); apply Forall_nil. }
  destruct C125_case as (H1 & H2 & _).
  split; [constructor|]. split; [cbn; tauto|]. split; [exact H1|]. split; [unfold each_id_once; now rewrite H2|]. split; [exact HL|].
  split; [unfold each_id_once; cbn; apply perm_skip, perm_swap|].
  intros geo calcD D HD. eexists. split; [apply c125_by_position; eauto; cbn; tauto|]. split.
  - cbn [pb_points]. now apply (in_order_stored 3).
  - intros (f & E & _ & Hf). specialize (Hf 2 20 ltac:(cbn; tauto)). cbn [pb_demands] in E. injection E as <-. discriminate.
Qed.
Print Assumptions C125_by_id_refuted.

(** C126: a section with more lines than the file has nodes is refused, and so are missing coordinates if distances
    cannot be computed without them. *)
Theorem C126_wrong_count_partial : forall (V : Type) (parse_float : text -> option V) (vzero : V) (geo : V -> V) calcD
  pre n ewt c lines points lines' loads,
  Forall inert_header pre -> planar ewt \/ ewt = str "GEO" ->
  Forall2 (point_line parse_float) lines points -> Forall2 (load_line parse_float) lines' loads ->
  (n < List.length points \/ n < List.length loads \/
   List.length points < n /\ forall e pts, In None pts -> calcD e pts = None)%nat ->
  exists e, read_TSPLIB_CVRP parse_float vzero geo calcD (coord_file pre n ewt c lines lines') = Raise e.
Proof. intros V pf vzero geo calcD. exact (c126_rejects pf vzero geo calcD). Qed.
Print Assumptions C126_wrong_count_partial.

(** REFUTED: with fewer demands than nodes the file is accepted and the last nodes have None for a demand. *)
Theorem C126_missing_demands_refuted : forall (V : Type) (parse_float : text -> option V) (vzero : V) (geo : V -> V) calcD
  pre n ewt c lines points lines' loads D,
  Forall inert_header pre -> planar ewt ->
  Forall2 (point_line parse_float) lines points -> List.length points = n ->
  Forall2 (load_line parse_float) lines' loads -> (List.length loads < n)%nat ->
  calcD (Some ewt) (map (fun e => Some (snd e)) points) = Some D ->
  exists P, read_TSPLIB_CVRP parse_float vzero geo calcD (coord_file pre n ewt c lines lines') = Ok P /\
  exists ds, pb_demands P = Some ds /\ List.length ds = n /\ nth_error ds (n - 1) = Some None.
Proof. intros V pf vzero geo calcD. exact (c126_few_loads pf vzero geo calcD). Qed.
Print Assumptions C126_missing_demands_refuted.

Example C126_runs :
  read_TSPLIB_CVRP parse_int 0 (fun z => z) some_calc (coord_file [] 2 (str "EUC_2D") 9 three_points [str "1 0"; str "2 5"]) = Raise IndexError /\
  (exists P, read_TSPLIB_CVRP parse_int 0 (fun z => z) some_calc (coord_file [] 3 (str "EUC_2D") 9 three_points [str "1 0"; str "2 5"]) = Ok P /\
     pb_demands P = Some [Some 0; Some 5; None]).
Proof. split; [vm_compute; reflexivity|]. eexists. split; vm_compute; reflexivity. Qed.
