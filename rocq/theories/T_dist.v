(** * C106, C107: distance matrices and random problems *)
From Coq Require Import ZifyBool ZifyNat.
From Verif Require Import Spec Spec_inter Spec_savings Spec_all Spec_dist PyBase M_text M_dist P_all P_dist P_dist2.

(** ** C106 *)

(** Eight types are known; the matrix has a row for each point, is symmetric and has a zero
    diagonal.  Distances are not negative. *)
Theorem C106_matrix :
  forall other q pts t, 0 < q ->
    ((exists D, calculate_D other q pts t = Some D) <->
     exists t', t = Some t' /\
       In t' [str "MAX_2D"; str "MAN_2D"; str "CEIL_2D"; str "FLOOR_2D"; str "EUC_2D"; str "ATT"; str "GEO"; str "EXACT_2D"]) /\
    forall n D, calculate_D other q pts t = Some (n, D) ->
      n = length pts /\ symmetric D /\ (forall i, D i i = 0) /\
      (t <> Some (str "GEO") -> t <> Some (str "EXACT_2D") -> nonneg_matrix D).
Proof.
  intros other q pts t Hq. split; [apply cd_known|]. intros n D H. destruct (cd_shape _ _ _ _ _ _ H) as (A1 & A2 & A3).
  split; [exact A1|]. split; [exact A2|]. split; [exact A3|]. intros X1 X2.
  destruct (proj1 (cd_known other q pts t) (ex_intro _ _ H)) as (t' & -> & Hin).
  apply (cd_nonneg other q Hq pts t' n D); [|exact H]. unfold known in Hin. unfold ours. cbn [In] in *. intuition congruence.
Qed.
Print Assumptions C106_matrix.

(** What the entries are.  Points outside the list do not matter. *)
Theorem C106_values :
  forall other q pts n D i j, 0 < q ->
    let p := nth i pts (0, 0) in let p' := nth j pts (0, 0) in
    (calculate_D other q pts (Some (str "MAX_2D")) = Some (n, D) ->
       D i j = Z.max (Z.abs (fst p - fst p')) (Z.abs (snd p - snd p'))) /\
    (calculate_D other q pts (Some (str "MAN_2D")) = Some (n, D) ->
       D i j = Z.abs (fst p - fst p') + Z.abs (snd p - snd p')) /\
    (calculate_D other q pts (Some (str "CEIL_2D")) = Some (n, D) -> exists k, D i j = q * k /\ rounded_up q k p p') /\
    (calculate_D other q pts (Some (str "FLOOR_2D")) = Some (n, D) -> exists k, D i j = q * k /\ rounded_down q k p p') /\
    (calculate_D other q pts (Some (str "EUC_2D")) = Some (n, D) -> exists k, D i j = q * k /\ 0 <= k /\ rounded q k p p').
Proof.
  intros other q pts n D i j Hq p p'. split; [|split; [|split; [|split]]]; intros H.
  - now apply (max_entry other q Hq pts n D i j).
  - now apply (man_entry other q Hq pts n D i j).
  - now apply (ceil_entry other q Hq pts n D i j).
  - now apply (floor_entry other q Hq pts n D i j).
  - now apply (euc_entry other q Hq pts n D i j).
Qed.
Print Assumptions C106_values.

(** Four types obey the triangle inequality, rounding down or to the nearest breaks it by at most
    one unit. *)
Theorem C106_triangle_partial :
  forall other q pts t n D, 0 < q -> calculate_D other q pts (Some t) = Some (n, D) ->
    (In t [str "MAX_2D"; str "MAN_2D"; str "CEIL_2D"; str "ATT"] -> triangle D) /\
    (In t [str "FLOOR_2D"; str "EUC_2D"] -> almost_triangle q D n).
Proof.
  intros other q pts t n D Hq H. split; intros Ht.
  - now apply (triangles other q Hq pts t n D).
  - intros i j k _ _ _. now apply (almost_triangles other q Hq pts t n D).
Qed.
Print Assumptions C106_triangle_partial.

Theorem C106_triangle_refuted :
  forall other, exists pts n D D',
    calculate_D other 1 pts (Some (str "EUC_2D")) = Some (n, D) /\
    calculate_D other 1 pts (Some (str "FLOOR_2D")) = Some (n, D') /\
    ~ almost_triangle 0 D n /\ ~ almost_triangle 0 D' n.
Proof.
  intros other. exists [(0, 0); (1, 1); (2, 2); (5, 5)]. do 3 eexists.
  split; [reflexivity|]. split; [reflexivity|]. split; intros H.
  - specialize (H 0%nat 2%nat 1%nat). vm_compute in H. specialize (H ltac:(lia) ltac:(lia) ltac:(lia)). now apply H.
  - specialize (H 0%nat 3%nat 1%nat). vm_compute in H. specialize (H ltac:(lia) ltac:(lia) ltac:(lia)). now apply H.
Qed.
Print Assumptions C106_triangle_refuted.

Example C106_run :
  exists D, calculate_D (fun _ _ _ => 0) 10 [(0, 0); (30, 40); (15, 0)] (Some (str "EUC_2D")) = Some (3%nat, D) /\
    D 0%nat 1%nat = 50 /\ D 0%nat 2%nat = 20 /\ D 1%nat 2%nat = 40.
Proof. eexists. split; [reflexivity|]. vm_compute. auto. Qed.

(** ATT distances are a tenth of the Euclidean distance, rounded up, where TSPLIB divides by the
    square root of ten. *)
Theorem C106_att_partial :
  forall other q pts n D i j, 0 < q -> calculate_D other q pts (Some (str "ATT")) = Some (n, D) ->
    exists k, D i j = q * k /\ rounded_up (10 * q) k (nth i pts (0, 0)) (nth j pts (0, 0)) /\
      forall k', tsplib_att q k' (nth i pts (0, 0)) (nth j pts (0, 0)) -> k <= k'.
Proof.
  intros other q pts n D i j Hq H. destruct (att_entry other q Hq pts n D i j H) as (k & E & HR). exists k. split; [exact E|]. split; [exact HR|].
  intros k' ((H1 & H2) & _). apply HR. split; [lia|]. rewrite !Z.pow_2_r in *. nia.
Qed.
Print Assumptions C106_att_partial.
Theorem C106_att_refuted :
  forall other, exists pts n D k,
    calculate_D other 1 pts (Some (str "ATT")) = Some (n, D) /\
    tsplib_att 1 k (nth 0 pts (0, 0)) (nth 1 pts (0, 0)) /\ D 0%nat 1%nat = 1 /\ k = 4.
Proof.
  intros other. exists [(0, 0); (10, 0)]. do 2 eexists. exists 4. split; [reflexivity|]. split; [|split; reflexivity].
  split; [split; [lia|vm_compute; discriminate]|]. intros k' H1 H2. cbn [nth] in H2. unfold square in H2. cbn [fst snd] in H2. rewrite !Z.pow_2_r in H2. nia.
Qed.
Print Assumptions C106_att_refuted.

(** ** C107 *)

(** A random problem has the depot in the origin, the number of customers asked for, and customers
    whose demands are between 1 and the capacity. *)
Theorem C107_generated :
  forall other q C draws, 0 < q -> q <= C ->
    exists pts ds n D,
      generate_CVRP other q C draws = Some (length draws, pts, ds, (n, D), C) /\
      calculate_D other q pts (Some (str "EUC_2D")) = Some (n, D) /\
      length pts = S (length draws) /\ length ds = S (length draws) /\ n = S (length draws) /\
      nth 0 pts (0, 0) = (0, 0) /\ nth 0 ds 0 = 0 /\
      forall i, (1 <= i < n)%nat -> q <= nth i ds 0 <= C.
Proof. exact generate_ok. Qed.
Print Assumptions C107_generated.

(** The random problems of the command line can be solved: what a heuristic returns passes the
    validation. *)
Theorem C107_solvable :
  forall other q draws eps, 0 < q -> 0 <= eps -> draws <> [] ->
    exists n D d C L,
      cli_random other q draws = Some (n, D, d, C, L) /\ n = S (length draws) /\ problem n D d C L eps /\
      C = Some 100 /\ L = None /\ (forall i, (1 <= i < n)%nat -> 1 <= d i <= 100) /\
      forall sol, returned n D d C L eps sol -> passes n D d C L eps sol.
Proof.
  intros other q draws eps Hq He Hne. destruct (cli_problem other q draws eps Hq He Hne) as (n & D & d & C & L & E & A1 & A2 & A3 & A4 & A5).
  exists n, D, d, C, L. repeat (split; [assumption|]). intros sol. now apply returned_passes.
Qed.
Print Assumptions C107_solvable.

Example C107_run :
  exists D d, cli_random (fun _ _ _ => 0) 10 [((1000, 0), 205); ((0, 1500), 3); ((-700, 700), 1234)] = Some (4%nat, D, d, Some 100, None) /\
    map d (range 0 4) = [0; 20; 1; 100] /\ D 1%nat 2%nat = 1800 /\ D 3%nat 0%nat = 990.
Proof. do 2 eexists. split; [vm_compute; reflexivity|]. split; vm_compute; auto. Qed.
