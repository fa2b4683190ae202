(** * The uniform interface of the heuristics that need Gurobi: the property theorems *)
From Verif Require Import Spec_rfcs Spec_savings Spec_inter Spec_polar Spec_mbsa Spec_gap Spec_petal Spec_algos3 PyBase M_util M_mbsa M_gap M_petal M_sweep M_polar P_sweep5 M_text M_cli2 P_polar2 P_gap5 P_wh9 P_gap6 P_mbsa6 P_petal10 T_mbsa T_petal
  M_algos M_cli M_algos3 P_algos4 Spec_all Spec.
From Coq Require Import ZifyBool ZifyNat Lia Arith List Permutation.
Import ListNotations.
Local Open Scope Z_scope.

(** ** C123: call_init(points, D, d, C, L, st, wtt, single, minimize_K) of the heuristics that need Gurobi *)

(** Every heuristic that can be selected is one of those of C121 or one of the three below. *)
Theorem C123_selected_gurobi : forall names a, In a (get_algorithms true names) ->
  (exists h, In h heuristics /\ a = short_name h) \/ a = str "wh" \/ a = str "mbsa" \/ a = str "gap" \/ a = str "ptl".
Proof. exact named_gurobi. Qed.
Print Assumptions C123_selected_gurobi.
Example C123_selected_case : get_algorithms true [str "Petal"; str "mbsa"; str "FJ81-GAP"] = [str "ptl"; str "mbsa"; str "gap"].
Proof. vm_compute. reflexivity. Qed.

(** mbsa: ends with a feasible solution if one vehicle cannot carry everything and the number of routes is to be
    minimized or joining routes never makes them longer. *)
Theorem C123_mm_partial : forall f mm eps N D d C L, Spec_all.problem N D d C L eps -> solver N D f ->
  (forall sv n x, mm sv n = MipOptimal x -> optimal sv x) -> (forall sv n, exists x, mm sv n = MipOptimal x) ->
  ~ within C eps (demand d (seq 1 (N - 1))) -> forall single minimize_K, minimize_K = true \/ joins_never_cost N f ->
  exists rs, serves N D d C L eps eps rs /\ ends_with (mm_call f mm eps N D d C L single minimize_K) (Returns (Some (encode rs))).
Proof. exact mm_call_ends. Qed.
Print Assumptions C123_mm_partial.
(** In any case it returns nothing else. *)
Theorem C123_mm_returns : forall f mm eps N D d C L, Spec_all.problem N D d C L eps -> solver N D f ->
  (forall sv n x, mm sv n = MipOptimal x -> optimal sv x) -> forall single minimize_K fuel s,
  mm_call f mm eps N D d C L single minimize_K fuel = Some (Returns s) ->
  exists rs, s = Some (encode rs) /\ serves N D d C L eps eps rs.
Proof. exact mm_returns. Qed.
Print Assumptions C123_mm_returns.
Example C123_mm_case : Spec_all.problem 5 D5 d5 (Some 3) (Some 12) 0 /\
  (forall single minimize_K, mm_call (brute_tsp D5) P_mbsa6.brute 0 5 D5 d5 (Some 3) (Some 12) single minimize_K 9 = Some (Returns (Some [0; 1; 2; 0; 3; 4; 0]%nat))).
Proof.
  split.
  - constructor; try lia; [apply line_metric|intros i j; unfold D5, line; lia|reflexivity| |reflexivity|exact D5_alone].
    intros n. do 5 (destruct n as [|n]; [cbn; lia|]). unfold d5, dem. rewrite nth_overflow by (cbn; lia). lia.
  - intros [] []; vm_compute; reflexivity.
Qed.

(** gap: always ends, and a solution it returns or hands out when it is interrupted is feasible. *)
Theorem C123_gap_returns : forall f edges seeds half_st gurobi eps N D d C L, Spec_all.problem N D d C L eps -> solver N D f -> gap_honest gurobi ->
  (forall l, L = Some l -> 0 <= l) ->
  forall single minimize_K, exists o, ends_with (gap_call f edges seeds half_st gurobi eps N D d C L single minimize_K) o /\
    (forall s, o = Returns (Some s) \/ o = Interrupt (Some s) -> exists rs, s = encode rs /\ serves N D d C L eps eps rs).
Proof. exact gap_returns. Qed.
Print Assumptions C123_gap_returns.
(** With a capacity, something to carry and no length limit it returns one with as few routes as possible if asked to. *)
Theorem C123_gap_partial : forall f edges seeds half_st gurobi eps N D d c L, Spec_all.problem N D d (Some c) L eps -> solver N D f -> gap_honest gurobi -> gap_patient gurobi ->
  ~ limit_set L -> 0 < c -> (forall i, (1 <= i < N)%nat -> d i <= c) -> 0 < demand d (seq 1 (N - 1)) -> (forall K t, (1 <= K)%nat -> seeds K t <> None) ->
  forall single, exists rs, ends_with (gap_call f edges seeds half_st gurobi eps N D d (Some c) L single true) (Returns (Some (encode rs))) /\
    serves N D d (Some c) L eps eps rs /\ forall rs', packs N d c rs' -> (length rs <= length rs')%nat.
Proof. exact gap_call_ends. Qed.
Print Assumptions C123_gap_partial.
Example C123_gap_case : Spec_all.problem 5 pairs one (Some 2) None 0 /\
  gap_call (in_turn pairs) [] (at_customers pairs [1; 3; 2; 4]%nat) 0 try_all 0 5 pairs one (Some 2) None true true 50 = Some (Returns (Some [0; 3; 4; 0; 1; 2; 0]%nat)).
Proof.
  split; [|vm_compute; reflexivity]. constructor; try lia.
  - now apply table_symmetric.
  - intros i j. unfold pairs. rewrite table_min. cbn [length Nat.sub].
    assert (Hi : (Nat.min i 4 = 0 \/ Nat.min i 4 = 1 \/ Nat.min i 4 = 2 \/ Nat.min i 4 = 3 \/ Nat.min i 4 = 4)%nat) by lia.
    assert (Hj : (Nat.min j 4 = 0 \/ Nat.min j 4 = 1 \/ Nat.min j 4 = 2 \/ Nat.min j 4 = 3 \/ Nat.min j 4 = 4)%nat) by lia.
    destruct Hi as [->|[->|[->|[->| ->]]]], Hj as [->|[->|[->|[->| ->]]]]; vm_compute; discriminate.
  - reflexivity.
  - intros [|n]; cbn; lia.
  - reflexivity.
  - intros i Hi. assert (HC : (i = 1 \/ i = 2 \/ i = 3 \/ i = 4)%nat) by lia. destruct HC as [->|[->|[->| ->]]]; (split; [vm_compute; intros _; discriminate|exact I]).
Qed.

(** ptl: by default it ends and serves everybody within the limits in every metric. *)
Theorem C123_ptl_partial : forall gurobi feas_relax, answers gurobi -> answers feas_relax ->
  forall quicksum f argsort points v eps N D d C L, Spec_all.problem N D d C L eps -> triangle D -> solver N D f ->
  length points = N -> planar points -> sorts argsort -> honest quicksum N gurobi ->
  exists rs, serves_all N D d C L eps rs /\ ends_with (ptl_call f argsort points gurobi feas_relax v eps N D d C L false false) (Returns (Some (encode rs))).
Proof. exact ptl_call_ends. Qed.
Print Assumptions C123_ptl_partial.
Definition places (n : nat) : list (list Z) := map (fun i => [fst (place i); snd (place i)]) (seq 0 n).
Example blocks_problem : forall N, (2 <= N <= 5)%nat -> Spec_all.problem N blocks loads (Some 4) None 0.
Proof.
  intros N HN. destruct blocks_metric as (B1 & B2 & B3 & B4 & B5). constructor; try assumption; try lia; [|apply blocks_alone; lia]. intros i j. unfold blocks. lia.
Qed.
Example places_planar : forall n, planar (places n).
Proof. intros n. unfold planar, places. apply Forall_forall. intros p Hp. apply in_map_iff in Hp. destruct Hp as (i & <- & _). reflexivity. Qed.
Example C123_ptl_case : Spec_all.problem 5 blocks loads (Some 4) None 0 /\ triangle blocks /\ answers (P_petal10.brute 5) /\ answers (brute_relax 5) /\
  planar (places 5) /\ length (places 5) = 5%nat /\ sorts by_insertion /\
  ptl_call (in_sweep_order blocks) by_insertion (places 5) (P_petal10.brute 5) (brute_relax 5) 2 0 5 blocks loads (Some 4) None false false 60 =
    Some (Returns (Some [0; 1; 0; 3; 2; 4; 0]%nat)).
Proof.
  split; [apply blocks_problem; lia|]. split; [apply blocks_metric|].
  split; [intros p; unfold P_petal10.brute; destruct (least _ _); split; discriminate|]. split; [intros p; unfold brute_relax; destruct (least _ _); split; discriminate|].
  split; [apply places_planar|]. split; [reflexivity|]. split; [exact by_insertion_sorts|]. vm_compute. reflexivity.
Qed.
(** With the option for a single iteration somebody may be left out. *)
Theorem C123_ptl_single_refuted : ~ (forall gurobi feas_relax, answers gurobi -> answers feas_relax ->
  forall quicksum f argsort points v eps N D d C L fuel sol, Spec_all.problem N D d C L eps -> triangle D -> solver N D f ->
  length points = N -> planar points -> sorts argsort -> honest quicksum N gurobi ->
  ptl_call f argsort points gurobi feas_relax v eps N D d C L true false fuel = Some (Returns (Some sol)) ->
  forall i, (1 <= i < N)%nat -> In i sol).
Proof.
  intros H. assert (X : In 3%nat [0; 1; 2; 0]%nat); [|cbn in X; lia].
  apply (H (P_petal10.brute 4) (brute_relax 4)) with (quicksum := chosen) (f := in_sweep_order blocks) (argsort := by_insertion) (points := places 4) (v := 2) (eps := 0) (N := 4%nat) (D := blocks) (d := loads) (C := Some 4) (L := None) (fuel := 60%nat).
  - intros p. unfold P_petal10.brute. destruct (least _ _); split; discriminate.
  - intros p. unfold brute_relax. destruct (least _ _); split; discriminate.
  - apply blocks_problem. lia.
  - apply blocks_metric.
  - apply in_sweep_order_solver.
  - reflexivity.
  - apply places_planar.
  - exact by_insertion_sorts.
  - apply P_petal10.brute_honest.
  - vm_compute. reflexivity.
  - lia.
Qed.
Print Assumptions C123_ptl_single_refuted.
