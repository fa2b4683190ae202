(** * Property C109: the printed statistics of a solution *)
From Coq Require Import Lia.
From Verif Require Import Spec Spec_inter PyBase M_util M_cvrp_ops M_stats Spec_stats P_stats.

(** Whether everything is in order is told in one line, or for each of the requirements in detail;
    the limit on the length is about the costs with service times. *)
Theorem C109_verdict :
  forall eps N D Dc d C L v rs,
    d 0%nat = 0 -> Dc 0%nat 0%nat = 0 -> limit_ok eps C -> limit_ok eps L ->
    Forall (fun r => r <> []) rs -> Forall (Forall (fun n => (1 <= n < N)%nat)) rs -> (1 <= N)%nat ->
    exists out, print_solution_statistics eps N (encode rs) D Dc d C L v = Some out /\
      hd_error out = Some (P_solution (encode rs)) /\
      (v <= 1 -> exists b, In (P_feasible b) out) /\
      (1 < v -> (exists b, In (P_all_served b) out) /\ (limit_set C -> exists b, In (P_c_feasible b) out) /\ (limit_set L -> exists b, In (P_l_feasible b) out)) /\
      (forall b, In (P_feasible b) out -> (b = true <-> covers N rs /\ Forall (feasible Dc d C L eps eps) rs)) /\
      (forall b, In (P_all_served b) out -> (b = true <-> covers N rs)) /\
      (forall b, In (P_c_feasible b) out -> (b = true <-> cap_ok d C eps rs)) /\
      (forall b, In (P_l_feasible b) out -> (b = true <-> len_ok Dc L eps rs)).
Proof.
  intros eps N D Dc d C L v rs H1 H2 H3 H4 H5 H6 H7.
  destruct (statistics eps N D Dc d C L v rs H1 H2 H3 H4 H5 H6 H7) as (out & E & A1 & (b & A2 & _) & A3 & A4 & A5 & A6 & A7 & _).
  exists out. split; [exact E|]. split; [exact A1|]. split; [intros Hv; exists b; auto|]. split; [exact A7|].
  split; [intros x Hx; apply (A3 x Hx)|]. split; [intros x Hx; apply (A4 x Hx)|]. split; [intros x Hx; apply (A5 x Hx)|intros x Hx; apply (A6 x Hx)].
Qed.
Print Assumptions C109_verdict.

(** The number of routes, the cost and the length that are printed are those of the solution. *)
Theorem C109_figures_partial :
  forall eps N D Dc d C L v rs,
    d 0%nat = 0 -> Dc 0%nat 0%nat = 0 -> limit_ok eps C -> limit_ok eps L ->
    Forall (fun r => r <> []) rs -> Forall (Forall (fun n => (1 <= n < N)%nat)) rs -> (1 <= N)%nat ->
    exists out, print_solution_statistics eps N (encode rs) D Dc d C L v = Some out /\
      (forall n, In (P_K n) out <-> n = length rs) /\
      (forall c, In (P_cost c) out -> c = routes_cost Dc rs) /\
      (forall c, In (P_length c) out -> c = routes_cost D rs) /\
      (0 < v -> routes_cost Dc rs <> routes_cost D rs -> In (P_cost (routes_cost Dc rs)) out) /\
      (routes_cost Dc rs <> 0 -> In (P_length (routes_cost D rs)) out).
Proof.
  intros eps N D Dc d C L v rs H1 H2 H3 H4 H5 H6 H7.
  destruct (statistics eps N D Dc d C L v rs H1 H2 H3 H4 H5 H6 H7) as (out & E & _ & _ & _ & _ & _ & _ & _ & B1 & B2 & B3 & B4 & B5 & _).
  exists out. now repeat (split; [assumption|]).
Qed.
Print Assumptions C109_figures_partial.

(** The table has one row for each route, numbered from one, with its cost, length and load, and the totals. *)
Theorem C109_table :
  forall eps N D Dc d C L v rs,
    d 0%nat = 0 -> Dc 0%nat 0%nat = 0 -> limit_ok eps C -> limit_ok eps L ->
    Forall (fun r => r <> []) rs -> Forall (Forall (fun n => (1 <= n < N)%nat)) rs -> (1 <= N)%nat ->
    exists out, print_solution_statistics eps N (encode rs) D Dc d C L v = Some out /\
      (forall no c l q r, In (P_route no c l q r) out <->
         1 < v /\ exists k t, no = (k + 1)%nat /\ nth_error rs k = Some t /\ row_of D Dc d C (P_route no c l q r) t (k + 1)) /\
      (forall c l, In (P_total c l) out <-> 1 < v /\ c = routes_cost Dc rs /\ l = routes_cost D rs).
Proof.
  intros eps N D Dc d C L v rs H1 H2 H3 H4 H5 H6 H7.
  destruct (statistics eps N D Dc d C L v rs H1 H2 H3 H4 H5 H6 H7) as (out & E & _ & _ & _ & _ & _ & _ & _ & _ & _ & _ & _ & _ & B6 & B7).
  exists out. now repeat (split; [assumption|]).
Qed.
Print Assumptions C109_table.

(** Points on a line; serving a customer takes 10. *)
Definition st_D : matrix := fun i j => Z.abs (Z.of_nat i - Z.of_nat j).
Definition st_Dc : matrix := fun i j => st_D i j + (if Nat.eqb i j then 0 else (if Nat.eqb i 0 then 0 else 5) + (if Nat.eqb j 0 then 0 else 5)).
Definition st_d : demands := fun n => if Nat.eqb n 0 then 0 else 2.
Example C109_case :
  print_solution_statistics 0 4 (encode [[1; 3]; [2]]%nat) st_D st_Dc st_d (Some 4) (Some 25) 2
  = Some [P_solution [0; 1; 3; 0; 2; 0]%nat; P_all_served true; P_c_feasible true; P_l_feasible false; P_K 2; P_cost 40; P_length 10; P_heading;
          P_route 1 26 6 (Some 4) [0; 1; 3; 0]%nat; P_route 2 14 4 (Some 2) [0; 2; 0]%nat; P_total 40 10] /\
  st_d 0%nat = 0 /\ st_Dc 0%nat 0%nat = 0 /\ limit_ok 0 (Some 4) /\ limit_ok 0 (Some 25) /\
  Forall (Forall (fun n => (1 <= n < 4)%nat)) [[1; 3]; [2]]%nat.
Proof. split; [vm_compute; reflexivity|]. repeat split; try lia. repeat (constructor; try lia). Qed.

(** Without verbosity the cost that is judged, with service times, is not printed. *)
Theorem C109_cost_not_printed_refuted :
  exists N D Dc d C L rs out, d 0%nat = 0 /\ Dc 0%nat 0%nat = 0 /\ limit_ok 0 C /\ limit_ok 0 L /\ covers N rs /\
    print_solution_statistics 0 N (encode rs) D Dc d C L 0 = Some out /\
    In (P_feasible false) out /\ In (P_length 10) out /\ L = Some 25 /\ routes_cost Dc rs = 40 /\ forall c, ~ In (P_cost c) out.
Proof.
  exists 4%nat, st_D, st_Dc, st_d, (Some 4), (Some 25), [[1; 3]; [2]]%nat. eexists.
  split; [reflexivity|]. split; [reflexivity|]. split; [split; lia|]. split; [split; lia|].
  split; [unfold covers; cbn; apply perm_skip, perm_swap|]. split; [vm_compute; reflexivity|].
  split; [cbn; tauto|]. split; [cbn; tauto|]. split; [reflexivity|]. split; [vm_compute; reflexivity|].
  intros c. cbn. intuition discriminate.
Qed.
Print Assumptions C109_cost_not_printed_refuted.
