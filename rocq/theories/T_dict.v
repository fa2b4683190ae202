(** * The example with a dictionary: the property theorems *)
From Verif Require Import Spec Spec_inter Spec_nn Spec_savings Spec_all PyBase M_cvrp_ops M_cli M_algos Spec_algos P_algos M_dict Spec_dict P_dict T_algos.
From Coq Require Import ZifyBool ZifyNat Lia Arith List Permutation.
Import ListNotations.
Local Open Scope Z_scope.

(** ** C127: the script that solves a problem given as a dictionary *)

(** The data are accepted exactly when they are consistent, and then the capacity is that of the vehicles. *)
Theorem C127_accepted : forall x C, convert x = Some C <-> consistent x C.
Proof. exact convert_spec. Qed.
Print Assumptions C127_accepted.

(** Otherwise the script fails before any algorithm is tried. *)
Theorem C127_refused : forall {A} x (call : A -> Z -> bool -> nat -> option algo_outcome), (forall C, ~ consistent x C) ->
  forall algos fuel, solve_from_data_dict x call algos fuel = Some ([], Failed).
Proof. exact @dict_refused. Qed.
Print Assumptions C127_refused.

(** With consistent data that can be solved the script ends, and it prints for every heuristic in turn a solution that
    serves every customer once and overloads no vehicle, its true cost and its number of routes; also for the heuristics
    that refuse to minimize the number of routes.  Missing: the heuristics outside the uniform interface of C121. *)
Theorem C127_solved_partial : forall x C eps s hs, consistent x C -> solvable x C eps ->
  Forall (fun h => fits h s (dd_N x) (dd_D x) (dd_d x) (Some C) None) hs ->
  exists rows, ends_with (solve_from_data_dict x (fun h C => call_init h s eps (dd_N x) (dd_D x) (dd_d x) (Some C) None false) hs) (rows, Finished) /\
  Forall2 (good_row (dd_N x) (dd_D x) (dd_d x) C eps) hs rows.
Proof. exact dict_solved. Qed.
Print Assumptions C127_solved_partial.

(** The same for any algorithms that come to a feasible solution in one of the two attempts. *)
Theorem C127_any_algorithms : forall {A} x C eps (call : A -> Z -> bool -> nat -> option algo_outcome) algos, consistent x C -> solvable x C eps ->
  Forall (fun a => exists rs, serves (dd_N x) (dd_D x) (dd_d x) (Some C) None eps eps rs /\ settles (call a C) (Returns (Some (encode rs)))) algos ->
  exists rows, ends_with (solve_from_data_dict x call algos) (rows, Finished) /\
  Forall2 (good_row (dd_N x) (dd_D x) (dd_d x) C eps) algos rows.
Proof. exact @dict_any. Qed.
Print Assumptions C127_any_algorithms.

(** An algorithm that fails in both attempts ends the script; the rows of the algorithms before it are printed. *)
Theorem C127_stops : forall {A} x C eps (call : A -> Z -> bool -> nat -> option algo_outcome) before a after o, consistent x C -> solvable x C eps ->
  Forall (fun a => exists rs, serves (dd_N x) (dd_D x) (dd_d x) (Some C) None eps eps rs /\ settles (call a C) (Returns (Some (encode rs)))) before ->
  settles (call a C) o -> (forall sol, o <> Returns (Some sol)) ->
  exists rows, ends_with (solve_from_data_dict x call (before ++ a :: after)) (rows, Failed) /\
  Forall2 (good_row (dd_N x) (dd_D x) (dd_d x) C eps) before rows.
Proof. exact @dict_stops. Qed.
Print Assumptions C127_stops.

(** The dictionary that comes with the example, examples/sample_data_dict.py lines 14-38 *)
Definition ulysses : data_dict := mkdd
   [[0; 509; 501; 312; 1019; 736; 656; 60; 1039; 726; 2314; 479; 448; 479; 619; 150];
    [509; 0; 126; 474; 1526; 1226; 1133; 532; 1449; 1122; 2789; 958; 941; 978; 1127; 542];
    [501; 126; 0; 541; 1516; 1184; 1084; 536; 1371; 1045; 2728; 913; 904; 946; 1115; 499];
    [312; 474; 541; 0; 1157; 980; 919; 271; 1333; 1029; 2553; 751; 704; 720; 783; 455];
    [1019; 1526; 1516; 1157; 0; 478; 583; 996; 858; 855; 1504; 677; 651; 600; 401; 1033];
    [736; 1226; 1184; 980; 478; 0; 115; 740; 470; 379; 1581; 271; 289; 261; 308; 687];
    [656; 1133; 1084; 919; 583; 115; 0; 667; 455; 288; 1661; 177; 216; 207; 343; 592];
    [60; 532; 536; 271; 996; 740; 667; 0; 1066; 759; 2320; 493; 454; 479; 598; 206];
    [1039; 1449; 1371; 1333; 858; 470; 455; 1066; 0; 328; 1387; 591; 650; 656; 776; 933];
    [726; 1122; 1045; 1029; 855; 379; 288; 759; 328; 0; 1697; 333; 400; 427; 622; 610];
    [2314; 2789; 2728; 2553; 1504; 1581; 1661; 2320; 1387; 1697; 0; 1838; 1868; 1841; 1789; 2248];
    [479; 958; 913; 751; 677; 271; 177; 493; 591; 333; 1838; 0; 68; 105; 336; 417];
    [448; 941; 904; 704; 651; 289; 216; 454; 650; 400; 1868; 68; 0; 52; 287; 406];
    [479; 978; 946; 720; 600; 261; 207; 479; 656; 427; 1841; 105; 52; 0; 237; 449];
    [619; 1127; 1115; 783; 401; 308; 343; 598; 776; 622; 1789; 336; 287; 237; 0; 636];
    [150; 542; 499; 455; 1033; 687; 592; 206; 933; 610; 2248; 417; 406; 449; 636; 0]]
   [0; 1; 1; 1; 1; 1; 1; 1; 1; 1; 1; 1; 1; 1; 1; 1] [5; 5; 5] 16.
Example C127_case :
  consistent ulysses 5 /\ solvable ulysses 5 0 /\
  Forall (fun h => fits h line_around (dd_N ulysses) (dd_D ulysses) (dd_d ulysses) (Some 5) None) [HPs; HSn; HPi] /\
  solve_from_data_dict ulysses (fun h C => call_init h line_around 0 (dd_N ulysses) (dd_D ulysses) (dd_d ulysses) (Some C) None false) [HPs; HSn; HPi] 100 =
    Some ([(HPs, (8077%Z, 3, [0; 7; 3; 1; 2; 15; 0; 9; 8; 10; 4; 14; 0; 11; 6; 5; 13; 12; 0]));
           (HSn, (10108%Z, 3, [0; 3; 1; 2; 9; 6; 0; 4; 14; 5; 8; 10; 0; 7; 15; 12; 13; 11; 0]));
           (HPi, (11925%Z, 3, [0; 1; 7; 13; 14; 4; 0; 2; 15; 11; 9; 8; 0; 3; 6; 12; 5; 10; 0]))]%nat, Finished).
Proof.
  split; [apply convert_spec; vm_compute; reflexivity|]. split; [|split].
  - constructor.
    + vm_compute. lia.
    + intros row v Hr Hv. assert (H : forallb (forallb (fun v => 0 <=? v)) (dd_matrix ulysses) = true) by (vm_compute; reflexivity).
      rewrite forallb_forall in H. specialize (H _ Hr). rewrite forallb_forall in H. specialize (H _ Hv). lia.
    + intros v Hv. assert (H : forallb (fun v => 0 <=? v) (dd_demands ulysses) = true) by (vm_compute; reflexivity).
      rewrite forallb_forall in H. specialize (H _ Hv). lia.
    + split; [reflexivity|]. eexists. split; reflexivity.
    + lia.
    + right. intros v Hv. assert (H : forallb (fun v => v <=? 5) (dd_demands ulysses) = true) by (vm_compute; reflexivity).
      rewrite forallb_forall in H. specialize (H _ Hv). lia.
  - constructor; [exact I|]. constructor; [|constructor; [exact I|constructor]]. cbn [fits]. intros i j Hi Hj Hij. left.
    assert (H : forallb (fun i => forallb (fun j => (i =? j)%nat || (dd_D ulysses i i <? dd_D ulysses i j)) (seq 0 16)) (seq 0 16) = true) by (vm_compute; reflexivity).
    change (dd_N ulysses) with 16%nat in Hi, Hj. rewrite forallb_forall in H. specialize (H i ltac:(apply in_seq; lia)).
    rewrite forallb_forall in H. specialize (H j ltac:(apply in_seq; lia)). lia.
  - vm_compute. reflexivity.
Qed.

(** Vehicles that differ, and a matrix that is not symmetric *)
Example C127_refused_case : (forall C, ~ consistent (mkdd [[0; 1]; [1; 0]] [0; 1] [5; 4] 2) C) /\ (forall C, ~ consistent (mkdd [[0; 1]; [2; 0]] [0; 1] [5] 2) C).
Proof. split; intros C H; apply convert_spec in H; vm_compute in H; discriminate. Qed.

(** Two customers, an algorithm that refuses to minimize routes, one that always fails and one that is not reached *)
Example C127_stops_case :
  let x := mkdd [[0; 1; 2]; [1; 0; 3]; [2; 3; 0]] [0; 2; 2] [3] 3 in
  let call := fun (a : nat) (C : Z) (mk : bool) (fuel : nat) =>
                if (a =? 0)%nat then Some (if mk then Raises else Returns (Some [0; 2; 0; 1; 0]%nat)) else if (a =? 1)%nat then Some Raises else None in
  consistent x 3 /\ solvable x 3 0 /\ settles (call 0%nat 3) (Returns (Some (encode [[2]; [1]]%nat))) /\ settles (call 1%nat 3) Raises /\
  solve_from_data_dict x call [0; 1; 2]%nat 0 = Some ([(0, (6%Z, 2, [0; 1; 0; 2; 0]))]%nat, Failed).
Proof.
  split; [apply convert_spec; vm_compute; reflexivity|]. split.
  - constructor; cbn; try lia.
    + intros row v Hr Hv. destruct Hr as [<-|[<-|[<-|[]]]]; cbn in Hv; lia.
    + split; [reflexivity|]. eexists. split; reflexivity.
    + right. intros v Hv. lia.
  - split; [|split; [|vm_compute; reflexivity]]; right; exists Raises; (split; [discriminate|]); split; exists 0%nat; reflexivity.
Qed.
