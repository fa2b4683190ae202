(** * Headers in any order: the property theorems *)
From Verif Require Import Spec PyBase M_text M_io Spec_io Spec_coord Spec_header P_text P_io2 P_coord P_header.
From Coq Require Import Permutation.

(** C129: the order of the header lines, the blanks in them and other fields make no difference: the nodes, the capacity
    and the edge weight type are read. *)
Theorem C129_any_header : forall (V : Type) (parse_float : text -> option V) (vzero : V) (geo : V -> V) calcD
  header n ewt c lines points lines' loads D,
  header_of n c ewt header -> planar ewt ->
  Forall2 (point_line parse_float) lines points -> List.length points = n ->
  Forall2 (load_line parse_float) lines' loads -> List.length loads = n ->
  calcD (Some ewt) (map (fun e => Some (snd e)) points) = Some D ->
  read_TSPLIB_CVRP parse_float vzero geo calcD (tsplib_file header lines lines') =
  Ok (mkproblem (Z.of_nat n - 1) (Some (map (fun e => Some (snd e)) points)) None
        (Some (map (fun e => Some (snd e)) loads)) (Some D) (Some c) (Some ewt)).
Proof.
  intros V pf vzero geo calcD header n ewt c ls es ls' es' D H1 H2 H3 H4 H5 H6 H7.
  rewrite (header_same pf vzero geo calcD header n ewt c ls es ls' es') by (auto; now left).
  apply c125_by_position; auto.
Qed.
Print Assumptions C129_any_header.

Example C129_case : header_of 3 8 (str "CEIL_2D")
  [str "CAPACITY: 8"; str "EDGE_WEIGHT_TYPE :CEIL_2D"; str "NAME : x"; str "TYPE : CVRP"; str "  DIMENSION  :  3 "].
Proof.
  exists [Capacity 8; WeightType (str "CEIL_2D"); Remark; Kind; Dimension 3]. split.
  - repeat (apply Forall2_cons; [split; [apply one_line_str; reflexivity|do 2 eexists; split; [vm_compute; reflexivity|]]|]); try apply Forall2_nil;
      cbn beta iota; try (split; vm_compute; reflexivity);
      (split; [vm_compute; discriminate|repeat (apply Forall_cons; [vm_compute; reflexivity|]); apply Forall_nil]).
  - cbn. symmetry. apply (Permutation_cons_append [Capacity 8; WeightType (str "CEIL_2D")] (Dimension 3)).
Qed.

(** The same for GEO: the coordinates in degrees and minutes are converted and kept apart from those in the plane. *)
Theorem C129_any_header_geo : forall (V : Type) (parse_float : text -> option V) (vzero : V) (geo : V -> V) calcD
  header n c lines points lines' loads D,
  header_of n c (str "GEO") header ->
  Forall2 (point_line parse_float) lines points -> List.length points = n ->
  Forall2 (load_line parse_float) lines' loads -> List.length loads = n ->
  calcD (Some (str "GEO")) (map (fun e => Some (geo (fst (snd e)), geo (snd (snd e)))) points) = Some D ->
  read_TSPLIB_CVRP parse_float vzero geo calcD (tsplib_file header lines lines') =
  Ok (mkproblem (Z.of_nat n - 1) None (Some (map (fun e => Some (geo (fst (snd e)), geo (snd (snd e)))) points))
        (Some (map (fun e => Some (snd e)) loads)) (Some D) (Some c) (Some (str "GEO"))).
Proof.
  intros V pf vzero geo calcD header n c ls es ls' es' D H1 H2 H3 H4 H5 H6.
  rewrite (header_same pf vzero geo calcD header n (str "GEO") c ls es ls' es') by (auto; now right).
  apply c125_geo; auto.
Qed.
Print Assumptions C129_any_header_geo.

(** A file that asks for another kind of problem or another edge weight type is refused, whatever follows. *)
Theorem C129_refused : forall (V : Type) (parse_float : text -> option V) (vzero : V) (geo : V -> V) calcD header items l rest,
  Forall2 header_line header items -> (forall w, In (WeightType w) items -> In w supported) ->
  unsupported_line l -> Forall one_line rest ->
  read_TSPLIB_CVRP parse_float vzero geo calcD (file_of (header ++ l :: rest)) = Raise IOError.
Proof. intros V pf vzero geo calcD. exact (header_refused pf vzero geo calcD). Qed.
Print Assumptions C129_refused.

Example C129_refused_case : Forall2 header_line [str "NAME : x"] [Remark] /\
  unsupported_line (str "EDGE_WEIGHT_TYPE : EUC_3D") /\ unsupported_line (str "TYPE : HCP") /\ unsupported_line (str "EDGE_WEIGHT_TYPE : euc_2d").
Proof.
  split.
  - apply Forall2_cons; [|apply Forall2_nil]. split; [apply one_line_str; reflexivity|]. do 2 eexists. split; [vm_compute; reflexivity|].
    split; [vm_compute; discriminate|repeat (apply Forall_cons; [vm_compute; reflexivity|]); apply Forall_nil].
  - split; [|split]; (split; [apply one_line_str; reflexivity|]); do 2 eexists; (split; [vm_compute; reflexivity|]).
    + right. split; [reflexivity|]. vm_compute. intuition discriminate.
    + left. repeat split.
    + right. split; [reflexivity|]. vm_compute. intuition discriminate.
Qed.
