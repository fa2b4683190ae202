(** * The generalized assignment heuristic: the costs that are minimized, and instances *)
From Verif Require Import Spec_rfcs Spec_inter Spec_savings PyBase M_util M_psavings P_base P_util M_gap Spec_gap P_gap P_gap2 P_gap3 P_gap4 P_gap5 P_wh9 Spec.
From Verif Require P_cvrp P_savfam.
From Coq Require Import ZifyBool ZifyNat Lia List Permutation.
Import ListNotations.
Local Open Scope Z_scope.

Lemma NoDup_app_split (a b : list nat) : NoDup (a ++ b) -> NoDup a /\ NoDup b.
Proof. induction a as [|x a IH]; cbn; intros H; [split; [constructor|exact H]|]. inversion H; subst. destruct IH; [assumption|]. split; [constructor; [intros X; apply H2, in_or_app; now left|assumption]|assumption]. Qed.
Lemma F2_in {A B} (R : A -> B -> Prop) l l' : Forall2 R l l' -> forall x, In x l -> exists y, In y l' /\ R x y.
Proof. induction 1 as [|x y l l' HR _ IH]; intros z Hz; [destruct Hz|]. destruct Hz as [<-|Hz]; [exists y; split; [now left|exact HR]|]. destruct (IH z Hz) as (w & Hw & Rw). exists w. split; [now right|exact Rw]. Qed.
Lemma assignment_route N gs k : covers N gs -> Permutation (on_route (as_assignment gs) N k) (nth k gs []).
Proof.
  intros HC. assert (Hn : NoDup (concat gs)) by (eapply Permutation_NoDup; [symmetry; exact HC|apply seq_NoDup]).
  assert (Hin : forall i, In i (nth k gs []) -> In i (concat gs)).
  { intros i Hi. apply in_concat. exists (nth k gs []). split; [|exact Hi]. destruct (nth_in_or_default k gs []) as [G|G]; [exact G|rewrite G in Hi; destruct Hi]. }
  apply NoDup_Permutation; [apply on_route_nodup| |].
  - clear - Hn. revert k. induction gs as [|g gs IH]; intros k; [destruct k; constructor|]. cbn [concat] in Hn. destruct k as [|k]; cbn [nth]; [apply NoDup_app_split in Hn; apply Hn|apply IH; apply NoDup_app_split in Hn; apply Hn].
  - intros i. rewrite on_route_in, as_in. split; [tauto|]. intros H. split; [|exact H]. apply Hin in H. apply (Permutation_in _ HC) in H. apply in_seq in H. lia.
Qed.
Lemma value_insertion N D d C K L sd mult gs : length gs = K -> covers N gs ->
  gap_value (build_gap N (stacked D 0 sd) d C K L mult) (as_assignment gs) = insertion D (after_depot D sd) gs.
Proof.
  intros <- HC. unfold gap_value, insertion. cbn [build_gap gp_K gp_N gp_cost]. f_equal. apply map_ext. intros k. rewrite (sum_perm _ _ _ (assignment_route N gs k HC)). f_equal. apply map_ext. intros i.
  destruct k as [|k]; [reflexivity|]. cbn [stacked after_depot]. destruct i; lia.
Qed.
Lemma value_assigned N D d C K L sd mult Y :
  gap_value (build_gap N (stacked D 0 sd) d C K L mult) Y = insertion D (after_depot D sd) (to_assignments Y N K).
Proof.
  unfold gap_value, insertion. cbn [build_gap gp_K gp_N gp_cost]. rewrite to_assignments_on, map_length, seq_length. f_equal. apply map_ext_in. intros k Hk. apply in_seq in Hk.
  rewrite (nth_indep _ [] (on_route Y N 0%nat)) by (rewrite map_length, seq_length; lia). rewrite map_nth, seq_nth by lia. cbn [Nat.add]. f_equal. apply map_ext. intros i.
  destruct k as [|k]; [reflexivity|]. cbn [stacked after_depot]. destruct i; lia.
Qed.
Lemma costs eps N D d c L f edges seeds sd gurobi k mk ua fuel sol found :
  0 <= eps -> solver N D f -> ~ limit_set L -> c <> 0 -> 0 <= d 0%nat -> gap_honest gurobi -> 0 < k -> seeds (Z.to_nat k) 0%nat = Some sd ->
  gap_init eps N D d (Some c) L f edges seeds 0 gurobi (Some k) mk false ua false fuel = Some (GapReturns (Some sol) found) ->
  exists rs, sol = encode rs /\ serves N D d (Some c) L eps eps rs /\ cheapest_for N D d c (after_depot D sd) (Z.to_nat k) rs.
Proof.
  intros Heps Hf HL Hc Hd0 HG Hk Es E. assert (HL' : is_set L = false) by (destruct (is_set L) eqn:E1; [apply set_true in E1; contradiction|reflexivity]).
  unfold gap_init, start_K, truthy in E. destruct (Z.eqb_spec k 0); [lia|]. rewrite Nat.ltb_irrefl in E. destruct fuel as [|fuel]; [discriminate|]. cbn [gap_turns] in E.
  assert (EA : forall sv, after_attempt L ua false (max_K_increase (Z.to_nat k)) sv (Z.to_nat k) 0 0 = (0%nat, 0%nat, true)) by (intros sv; unfold after_attempt, adaptive; rewrite HL', andb_false_r; reflexivity).
  set (p := build_gap N (stacked D 0 sd) d (Some c) (Z.to_nat k) L (multiplier L ua 0)).
  assert (SH : forall Y, short p Y).
  { intros Y kk _. cbn [p build_gap gp_L]. destruct L as [l|]; [|exact I]. cbn [option_map within]. intros Hn. exfalso. apply HL. cbn [limit_set]. lia. }
  unfold gap_turn in E. cbn [gap_start g_K g_inc g_trial g_calls g_tries] in E. rewrite Nat.add_0_r, Es in E. fold p in E.
  assert (CL : forall s, close_turn N mk false (Z.to_nat k) (gap_start (Z.to_nat k)) s 0 0 true = inr (GapReturns (sol_of s) (match s with Some x => [x] | None => [] end))).
  { intros s. unfold close_turn. cbn [andb negb orb]. unfold next_K. cbn [g_K g_best gap_start]. rewrite Nat.leb_refl, orb_true_r. destruct s as [[[s sf] sK]|]; reflexivity. }
  unfold solve_gap in E. pose proof (HG 0%nat p) as [G _]. destruct (gurobi 0%nat p false) as [Y| | | |]; [|cbn [p build_gap gp_L] in E; rewrite HL' in E| | |destruct G].
  - destruct G as (Hh & _ & Hmin). rewrite EA, CL in E. injection E as E _. destruct (evaluate _ _ _ _ _ _ _) as [s|] eqn:EV in E; [|discriminate]. injection E as <-.
    assert (HSV : exists rs, s = (encode rs, routes_cost D rs, length rs) /\ serves N D d (Some c) L eps eps rs /\ (length rs <= gp_K p)%nat /\
      Forall2 (@Permutation nat) rs (filter nonempty (to_assignments Y N (gp_K p)))) by (eapply hard_serves2; [..|exact Hh|exact EV]; first [eassumption|reflexivity]).
    destruct HSV as (rs & -> & HS & _ & F2).
    exists rs. split; [reflexivity|]. split; [exact HS|]. exists (to_assignments Y N (Z.to_nat k)).
    assert (HC : covers N (to_assignments Y N (Z.to_nat k))) by exact (hard_covers p Y Hh).
    split; [now rewrite to_assignments_on, map_length, seq_length|]. split; [split; [exact HC|]|split].
    + rewrite to_assignments_on. apply Forall_forall. intros r Hr. apply in_map_iff in Hr. destruct Hr as (kk & <- & Hkk). apply in_seq in Hkk. destruct Hh as [_ Hh]. specialize (Hh kk ltac:(cbn [p build_gap gp_K]; lia)). cbn [p build_gap gp_C gp_d gp_N within] in Hh. specialize (Hh Hc). lia.
    + intros r Hr. destruct (F2_in _ _ _ F2 r Hr) as (g & Hg & Pg). apply filter_In in Hg. exists g. split; [apply Hg|now symmetry].
    + intros gs' El HP'. unfold p in Hmin. rewrite <- (value_assigned N D d (Some c) (Z.to_nat k) L sd (multiplier L ua 0)), <- (value_insertion N D d (Some c) (Z.to_nat k) L sd (multiplier L ua 0) gs' El (proj1 HP')).
      apply Hmin; [|apply SH]. apply packs_hard with c; [reflexivity|now rewrite <- El|exact HP'].
  - rewrite EA, CL in E. discriminate.
  - unfold after_error, adaptive in E. rewrite HL' in E. discriminate.
  - discriminate.
Qed.

(** ** Instances *)
(** A TSP solver that visits the nodes as given *)
Definition in_turn (D : matrix) : tsp := fun l => (l ++ firstn 1 l, path_cost D (l ++ firstn 1 l)).
Lemma in_turn_solver N D : solver N D (in_turn D).
Proof. intros l _ _ _. exists l. split; reflexivity. Qed.
(** Seed points at these customers, in turn, beginning with another one in each trial *)
Definition at_customers (D : matrix) (cs : list nat) : nat -> nat -> option (nat -> nat -> Z) :=
  fun K t => if Nat.eqb K 0 then None else Some (fun k i => D (nth ((k + t) mod length cs) cs 0%nat) i).
Lemma at_customers_some D cs K t : (1 <= K)%nat -> at_customers D cs K t <> None.
Proof. unfold at_customers. destruct (Nat.eqb_spec K 0); [lia|discriminate]. Qed.
Definition one (i : nat) : Z := match i with O => 0 | _ => 1 end.
Definition no_demand (i : nat) : Z := 0.
Definition two_near := table [[0;5;5];[5;0;0];[5;0;0]].
Definition two_far := table [[0;1;1];[1;0;2];[1;2;0]].
Definition one_two := table [[0;10;10;10];[10;0;14;14];[10;14;0;0];[10;14;0;0]].
Definition pairs := table [[0;5;6;5;6];[5;0;2;9;9];[6;2;0;9;9];[5;9;9;0;2];[6;9;9;2;0]].

Lemma only_encoding sol N D d C L eps rs0 rs : sol = encode rs0 -> Forall customers_only rs0 -> sol = encode rs -> serves N D d C L eps eps rs -> rs = rs0.
Proof. intros E0 F0 E1 [HC _]. apply P_cvrp.encode_inj; [eapply P_savfam.covers_only, HC|exact F0|congruence]. Qed.
Lemma length_only :
  ~ (forall eps N D d L f edges seeds half_st gurobi find_optimal_seeds use_adaptive fuel s found,
       0 <= eps -> solver N D f -> limit_set L -> symmetric D -> triangle D -> served_alone N D d None L eps eps ->
       Permutation edges (map (D 0%nat) (seq 1 (N - 1))) -> (forall K t, (1 <= K)%nat -> seeds K t <> None) -> gap_honest gurobi -> gap_patient gurobi ->
       gap_init eps N D d None L f edges seeds half_st gurobi None true find_optimal_seeds use_adaptive false fuel = Some (GapReturns s found) ->
       s <> None).
Proof.
  intros H. refine (H 0 3%nat two_far one (Some 2) (in_turn two_far) [1; 1] (at_customers two_far [1; 2]%nat) 0 try_all true true 50%nat None [] ltac:(lia) (in_turn_solver 3 two_far) _ _ _ _ _ (at_customers_some two_far [1; 2]%nat) try_all_honest try_all_patient _ eq_refl).
  - discriminate.
  - now apply table_symmetric.
  - now apply table_triangle.
  - intros i Hi. do 3 (destruct i as [|i]; [first [lia | split; vm_compute; intros; try discriminate; auto]|]). lia.
  - reflexivity.
  - vm_compute. reflexivity.
Qed.
Lemma wrong_seeds :
  ~ (forall eps N D d c L f edges seeds sd gurobi k minimize_K use_adaptive fuel sol found,
       0 <= eps -> solver N D f -> ~ limit_set L -> 0 < c -> d 0%nat = 0 -> gap_honest gurobi -> gap_patient gurobi -> 0 < k -> seeds (Z.to_nat k) 0%nat = Some sd ->
       gap_init eps N D d (Some c) L f edges seeds 0 gurobi (Some k) minimize_K false use_adaptive false fuel = Some (GapReturns (Some sol) found) ->
       exists rs, sol = encode rs /\ serves N D d (Some c) L eps eps rs /\ cheapest_for N D d c sd (Z.to_nat k) rs).
Proof.
  intros H. destruct (H 0 4%nat one_two one 2 None (in_turn one_two) [] (at_customers one_two [1; 2]%nat) (fun k i => one_two (nth ((k + 0) mod 2) [1; 2]%nat 0%nat) i) try_all 2 true true 50%nat
    _ _ ltac:(lia) (in_turn_solver 4 one_two) ltac:(intros X; exact X) ltac:(lia) eq_refl try_all_honest try_all_patient ltac:(lia) eq_refl ltac:(vm_compute; reflexivity)) as (rs & E & S & gs & El & [HC HP] & Hr & Hmin).
  pose proof (only_encoding _ _ _ _ _ _ _ [[3]; [1; 2]]%nat rs eq_refl ltac:(repeat constructor; discriminate) E S) as ->. clear E S H.
  specialize (Hmin [[1]; [2; 3]]%nat eq_refl). cbn [Z.to_nat Pos.to_nat Pos.iter_op] in *.
  assert (PK : packs 4 one 2 [[1]; [2; 3]]%nat) by (split; [unfold covers; reflexivity|repeat constructor; vm_compute; discriminate]). specialize (Hmin PK).
  destruct (Hr [3%nat] (or_introl eq_refl)) as (g3 & G3 & P3). destruct (Hr [1; 2]%nat (or_intror (or_introl eq_refl))) as (g12 & G12 & P12).
  apply Permutation_sym, Permutation_length_1_inv in P3. subst g3. apply Permutation_sym, Permutation_length_2_inv in P12.
  destruct gs as [|a [|b [|x gs]]]; try discriminate. destruct G3 as [G3|[G3|[]]]; destruct G12 as [E12|[E12|[]]]; destruct P12 as [P12|P12]; try congruence; subst; vm_compute in Hmin; now apply Hmin.
Qed.
Lemma on_two_routes :
  ~ (forall eps N D d C L f edges seeds half_st gurobi minimize_K find_optimal_seeds use_adaptive increase_K K fuel sol found,
       0 <= eps -> d 0%nat = 0 -> solver N D f -> limit_set L ->
       gap_init eps N D d C L f edges seeds half_st gurobi K minimize_K find_optimal_seeds use_adaptive increase_K fuel = Some (GapReturns (Some sol) found) ->
       exists rs, sol = encode rs /\ covers N rs).
Proof.
  intros H. destruct (H 0 2%nat two_far one (Some 5) (Some 9) (in_turn two_far) [] (at_customers two_far [1]%nat) 0 (fun _ _ _ => GOptimal (fun _ _ => true)) true false false false (Some 2) 50%nat _ _
    ltac:(lia) eq_refl (in_turn_solver 2 two_far) ltac:(discriminate) ltac:(vm_compute; reflexivity)) as (rs & E & HC).
  assert (ER : rs = [[1]; [1]]%nat) by (apply P_cvrp.encode_inj; [eapply P_savfam.covers_only, HC|repeat constructor; discriminate|symmetry; exact E]). subst.
  apply Permutation_length in HC. discriminate.
Qed.
