(** * The table of results and the option -D of VeRyPy.py: the property theorems *)
From Verif Require Import Spec Spec_dist PyBase M_text M_cvrp_ops M_cli Spec_cli M_cli2 M_dist M_table Spec_table P_table P_table2 T_cli.
From Coq Require Import ZifyBool ZifyNat Lia Arith List Permutation Sorting.Sorted.
Import ListNotations.
Local Open Scope Z_scope.

(** ** C118: the table of results *)

(** Several jobs, none of them interrupted, no name twice and every problem solved by some algorithm: there is a row for
    every problem and a column for every algorithm, in alphabetical order, with the qualities reported and the least
    number of routes found. *)
Theorem C118_table_partial : forall bn algo_name eps o run ps algos,
  0 <= eps -> (forall op, In op (o_ls o) -> (op <= 3)%nat) -> Forall proper_problem ps ->
  (forall p a, In p ps -> In a algos -> proper_outcome (p_N p) (run a p)) -> Forall (printable o) ps -> o_minimal o = false ->
  NoDup (map (fun p => bn (p_file p)) ps) -> NoDup (map algo_name algos) ->
  (1 < length ps)%nat /\ algos <> [] \/ ps <> [] /\ (1 < length algos)%nat ->
  o_simulate o = false -> (forall p a, In p ps -> In a algos -> interrupted (run a p) = false) ->
  (forall p, In p ps -> exists a, In a algos /\ exists c s, found (run a p) = Some (c :: s)) ->
  exists fuel0 reports titles names rows,
    Forall2 (job_report eps o run) (list_prod ps algos) reports /\
    alphabetical titles /\ Permutation titles (map algo_name algos) /\
    alphabetical names /\ Permutation names (map (fun p => bn (p_file p)) ps) /\
    Forall2 (true_row bn algo_name reports titles) names rows /\
    forall fuel, (fuel0 <= fuel)%nat -> verypy bn algo_name eps o run ps algos fuel = (reports, AllDone, Some (mkt titles rows None)).
Proof. exact complete_table. Qed.
Print Assumptions C118_table_partial.

(** Whenever a table is printed, also after an interrupt, its rows are in alphabetical order and each of them is true for
    the algorithms with a result on that problem; if the printing fails, then at a problem that was not solved. *)
Theorem C118_rows_partial : forall bn algo_name eps o run ps algos fuel reports e t,
  verypy bn algo_name eps o run ps algos fuel = (reports, e, Some t) ->
  exists names printed rest, alphabetical names /\ (forall f, In f names <-> exists a v, reported bn algo_name reports f a v) /\
    names = printed ++ rest /\
    Forall2 (fun f row => exists ts, columns bn algo_name reports f ts /\ true_row bn algo_name reports ts f row) printed (t_rows t) /\
    match t_failed t with
    | None => rest = []
    | Some f => (exists rest', rest = f :: rest') /\ ~ solved bn reports f
    end /\
    match names with [] => t_titles t = [] | f :: _ => columns bn algo_name reports f (t_titles t) end.
Proof. exact rows_true. Qed.
Print Assumptions C118_rows_partial.

Definition file_name (i : nat) : text := match i with 0%nat => str "E-n22" | 1%nat => str "B-n31" | _ => str "A-n32" end.
Definition method_name (i : nat) : text := match i with 0%nat => str "We64-SS" | 1%nat => str "CW64-PS" | _ => str "Sweep" end.
Definition plain : options := mko false false false [].
Definition table_run (a : nat) (p : problem) : algo_outcome :=
  match a, p_file p with
  | 0%nat, _ => Returns (Some (encode run1))
  | 1%nat, 0%nat => Raises
  | 1%nat, _ => Returns (Some (encode run3))
  | _, 0%nat => Returns (Some (encode [[1;2;3;4]]%nat))
  | _, _ => Interrupt None
  end.
Definition two_problems : list problem := [pairs_problem 0 (Some 2); pairs_problem 1 (Some 2)].
Example C118_case : Forall proper_problem two_problems /\ Forall (printable plain) two_problems /\
  NoDup (map (fun p => file_name (p_file p)) two_problems) /\ NoDup (map method_name [0;1]%nat) /\
  (forall p a, In p two_problems -> In a [0;1]%nat -> interrupted (table_run a p) = false) /\
  (forall p, In p two_problems -> exists a, In a [0;1]%nat /\ exists c s, found (table_run a p) = Some (c :: s)) /\
  snd (verypy file_name method_name 0 plain table_run two_problems [0;1]%nat 40) =
    Some (mkt [str "CW64-PS"; str "We64-SS"] [(str "B-n31", 2%nat, [Some 71; Some 70]); (str "E-n22", 2%nat, [None; Some 70])] None).
Proof.
  split; [repeat (apply Forall_cons; [apply pairs_proper; auto|]); constructor|].
  split; [repeat (apply Forall_cons; [right; cbn; lia|]); constructor|].
  split; [repeat constructor; cbn; intuition discriminate|]. split; [repeat constructor; cbn; intuition discriminate|].
  split; [intros p a [<-|[<-|[]]] [<-|[<-|[]]]; reflexivity|].
  split; [intros p [<-|[<-|[]]]; exists 0%nat; (split; [now left|]); do 2 eexists; reflexivity|].
  vm_compute. reflexivity.
Qed.

(** A problem that no algorithm solved ends the program with an exception in the middle of the table: the results of the
    problems after it are not shown, although they were found. *)
Theorem C118_unsolved_refuted : exists bn algo_name eps o run ps algos, Forall proper_problem ps /\ Forall (printable o) ps /\
  (forall p a, In p ps -> In a algos -> proper_outcome (p_N p) (run a p) /\ interrupted (run a p) = false) /\
  NoDup (map (fun p => bn (p_file p)) ps) /\ o_minimal o = false /\ o_simulate o = false /\
  exists reports titles f, (forall fuel, verypy bn algo_name eps o run ps algos fuel = (reports, AllDone, Some (mkt titles [] (Some f)))) /\
    exists i a sol q K, In (Solved i a sol true q K false) reports /\ text_ltb f (bn i) = true.
Proof.
  exists file_name, method_name, 0, plain, (fun a p => match p_file p with 0%nat => Returns (Some (encode run1)) | _ => Raises end), two_problems, [0]%nat.
  split; [repeat (apply Forall_cons; [apply pairs_proper; auto|]); constructor|].
  split; [repeat (apply Forall_cons; [right; cbn; lia|]); constructor|].
  split.
  { intros p a [<-|[<-|[]]] _; (split; [|reflexivity]); [|intros s [=]]. intros s [= <-]. right. exists run1. split; [reflexivity|].
    split; [repeat constructor; cbn; lia|]. split; [repeat constructor; cbn; lia|discriminate]. }
  split; [repeat constructor; cbn; intuition discriminate|]. split; [reflexivity|]. split; [reflexivity|].
  do 3 eexists. split; [intros fuel; vm_compute; reflexivity|]. exists 0%nat, 0%nat. do 3 eexists. split; [left; reflexivity|vm_compute; reflexivity].
Qed.
Print Assumptions C118_unsolved_refuted.

(** A simulated run, meant for testing scripts, always ends with that exception. *)
Theorem C118_simulate_refuted : forall bn algo_name eps o run ps algos fuel,
  o_simulate o = true -> o_minimal o = false -> ps <> [] -> algos <> [] ->
  ((1 < length algos)%nat \/ exists p p', In p ps /\ In p' ps /\ bn (p_file p) <> bn (p_file p')) ->
  exists reports t f, verypy bn algo_name eps o run ps algos fuel = (reports, AllDone, Some t) /\ t_rows t = [] /\ t_failed t = Some f.
Proof. exact simulated_table. Qed.
Print Assumptions C118_simulate_refuted.

(** After an interrupt the titles need not fit the rows: here one title above a row with three results. *)
Theorem C118_interrupt_refuted : exists bn algo_name eps o run ps algos, Forall proper_problem ps /\ Forall (printable o) ps /\
  (forall p a, In p ps -> In a algos -> proper_outcome (p_N p) (run a p)) /\
  NoDup (map (fun p => bn (p_file p)) ps) /\ NoDup (map algo_name algos) /\
  exists reports titles rows f K vs, (forall fuel, verypy bn algo_name eps o run ps algos fuel = (reports, Stopped, Some (mkt titles rows None))) /\
    In (f, K, vs) rows /\ length vs = 3%nat /\ length titles = 1%nat.
Proof.
  exists file_name, method_name, 0, plain, (fun a p => match p_file p with 0%nat => Returns (Some (encode run1)) | _ => Interrupt (Some (encode run1)) end), two_problems, [2;1;0]%nat.
  split; [repeat (apply Forall_cons; [apply pairs_proper; auto|]); constructor|].
  split; [repeat (apply Forall_cons; [right; cbn; lia|]); constructor|].
  split.
  { intros p a [<-|[<-|[]]] _ s [= <-]; right; exists run1; (split; [reflexivity|]); (split; [repeat constructor; cbn; lia|]); (split; [repeat constructor; cbn; lia|discriminate]). }
  split; [repeat constructor; cbn; intuition discriminate|]. split; [repeat constructor; cbn; intuition discriminate|].
  do 6 eexists. split; [intros fuel; vm_compute; reflexivity|]. split; [right; left; reflexivity|]. split; reflexivity.
Qed.
Print Assumptions C118_interrupt_refuted.

(** Two problems with the same base name share one row: the results of the first one are lost. *)
Theorem C118_same_name_refuted : exists bn algo_name eps o run p p' a, proper_problem p /\ proper_problem p' /\ printable o p /\ printable o p' /\
  proper_outcome (p_N p) (run a p) /\ proper_outcome (p_N p') (run a p') /\ o_minimal o = false /\
  exists r r' q q' titles f K, r <> r' /\ q <> q' /\ (exists sol, r = Solved (p_file p) a sol true q K false) /\
    (exists sol, r' = Solved (p_file p') a sol true q' K false) /\
    forall fuel, verypy bn algo_name eps o run [p; p'] [a; a] fuel = ([r; r; r'; r'], AllDone, Some (mkt titles [(f, K, [Some q'])] None)).
Proof.
  exists file_name, method_name, 0, plain, (fun a p => Returns (Some (encode run1))), (pairs_problem 0 (Some 2)),
    (mkp 0 5 (fun i j => 2 * pairs_D i j) (fun i j => 2 * pairs_D i j) pairs_d (Some 2) None), 0%nat.
  assert (HO : proper_outcome 5 (Returns (Some (encode run1)))).
  { intros s [= <-]. right. exists run1. split; [reflexivity|]. split; [repeat constructor; cbn; lia|]. split; [repeat constructor; cbn; lia|discriminate]. }
  split; [apply pairs_proper; auto|]. split.
  { destruct (pairs_proper 0 (Some 2) (or_intror eq_refl)) as (H1 & H2 & H3 & H4 & H5 & H6 & _). split; [exact H1|].
    split; [intros i j; cbn; now rewrite (pairs_symmetric i j)|]. split; [reflexivity|]. split; [exact H4|]. split; [exact H5|]. split; [exact H6|]. left. reflexivity. }
  split; [right; cbn; lia|]. split; [right; cbn; lia|]. split; [exact HO|]. split; [exact HO|]. split; [reflexivity|].
  exists (Solved 0 0 (encode run1) true 70 2 false), (Solved 0 0 (encode run1) true 140 2 false), 70, 140. do 3 eexists.
  split; [discriminate|]. split; [lia|]. split; [eexists; reflexivity|]. split; [eexists; reflexivity|]. intros fuel. vm_compute. reflexivity.
Qed.
Print Assumptions C118_same_name_refuted.

(** ** C119: the option -D *)

(** TRUNCATE rounds the distances of the problem down to whole numbers, and a symmetric matrix stays one; EXACT and no
    option leave the matrix as it is. *)
Theorem C119_truncate_partial : forall q D, 0 < q ->
  (exists D', force_weights q (Some (str "TRUNCATE")) D = Some D' /\
    (forall i j, exists k, D' i j = q * k /\ q * k <= D i j < q * (k + 1)) /\
    (symmetric D -> symmetric D') /\ (forall i, D i i = 0 -> D' i i = 0)) /\
  force_weights q (Some (str "EXACT")) D = Some D /\ force_weights q None D = Some D.
Proof.
  intros q D Hq. split; [|split; reflexivity]. exists (fun i j => q * (D i j / q)). split; [reflexivity|]. split; [|split].
  - intros i j. exists (D i j / q). split; [reflexivity|]. pose proof (Z.mul_div_le (D i j) q Hq). pose proof (Z.mul_succ_div_gt (D i j) q Hq). lia.
  - intros HS i j. cbn beta; now rewrite (HS i j).
  - intros i E. cbn beta. rewrite E. apply Z.mul_0_r.
Qed.
Print Assumptions C119_truncate_partial.

Example C119_case : exists D, force_weights 10 (Some (str "TRUNCATE")) (fun i j => if Nat.eqb i j then 0 else 27) = Some D /\ D 0%nat 1%nat = 20.
Proof. eexists. split; reflexivity. Qed.

(** ROUND ends the program with an exception for every problem. *)
Theorem C119_round_refuted : forall q D, force_weights q (Some (str "ROUND")) D = None.
Proof. reflexivity. Qed.
Print Assumptions C119_round_refuted.

(** The option comes too late for a problem whose distances were rounded when it was read: EXACT does not give the exact
    distances, and TRUNCATE does not give the distances rounded down. *)
Theorem C119_late_refuted : forall other, exists pts n D D' D'' i j,
  calculate_D other 1 pts (Some (str "EUC_2D")) = Some (n, D) /\ (i < n)%nat /\ (j < n)%nat /\
  force_weights 1 (Some (str "EXACT")) D = Some D' /\ D' i j ^ 2 <> square (nth i pts (0, 0)) (nth j pts (0, 0)) /\
  force_weights 1 (Some (str "TRUNCATE")) D = Some D'' /\ ~ rounded_down 1 (D'' i j) (nth i pts (0, 0)) (nth j pts (0, 0)).
Proof.
  intros other. exists [(0, 0); (2, 2)]. do 4 eexists. exists 0%nat, 1%nat. split; [reflexivity|]. split; [cbn; lia|]. split; [cbn; lia|].
  split; [reflexivity|]. split; [vm_compute; discriminate|]. split; [reflexivity|]. intros (H & _). vm_compute in H. destruct H as [H|H]; [discriminate|now apply H].
Qed.
Print Assumptions C119_late_refuted.
