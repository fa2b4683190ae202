(** * Properties C86 to C92: the generalized assignment heuristic of Fisher and Jaikumar *)
From Verif Require Import Spec_rfcs Spec_inter Spec_savings PyBase M_util M_gap Spec_gap P_gap3 P_gap4 P_gap5 P_gap6 P_gap7 Spec.
From Coq Require Import ZifyBool ZifyNat Lia List Permutation.
Import ListNotations.
Local Open Scope Z_scope.

(** ** C86 *)

(** Whatever it returns, or hands out when the user interrupts it, serves everybody once and is within the
    limits, and none of the other solutions it has found beats it. *)
Theorem C86_result :
  forall eps N D d C L f edges seeds half_st gurobi minimize_K find_optimal_seeds use_adaptive increase_K K fuel r s found,
    0 <= eps -> 0 <= d 0%nat -> solver N D f -> gap_honest gurobi ->
    gap_init eps N D d C L f edges seeds half_st gurobi K minimize_K find_optimal_seeds use_adaptive increase_K fuel = Some r ->
    r = GapReturns s found \/ r = GapInterrupted s found ->
    exists rss, found_are D found rss /\ Forall (serves N D d C L eps eps) rss /\ best_among minimize_K D s rss.
Proof. intros. eapply result; eassumption. Qed.
Print Assumptions C86_result.
(** With the number of routes given, it finds nothing with more of them, unless told to increase it. *)
Theorem C86_at_most_K :
  forall eps N D d C L f edges seeds half_st gurobi minimize_K find_optimal_seeds use_adaptive k fuel s found,
    0 <= eps -> 0 <= d 0%nat -> solver N D f -> gap_honest gurobi -> 0 < k ->
    gap_init eps N D d C L f edges seeds half_st gurobi (Some k) minimize_K find_optimal_seeds use_adaptive false fuel = Some (GapReturns s found) ->
    exists rss, found_are D found rss /\ Forall (fun rs => (length rs <= Z.to_nat k)%nat) rss.
Proof. intros. eapply at_most_K; [..|eassumption]; first [assumption|reflexivity]. Qed.
Print Assumptions C86_at_most_K.
Example C86_case :
  solver 5 pairs (in_turn pairs) /\ gap_honest try_all /\
  match gap_init 0 5 pairs one (Some 3) (Some 16) (in_turn pairs) [] (at_customers pairs [1; 3; 2; 4]%nat) 0 try_all (Some 3) true true true false 50 with
  | Some (GapReturns s found) => s = Some [0; 1; 2; 0; 3; 4; 0]%nat /\ length found = 5%nat
  | _ => False
  end.
Proof. split; [apply in_turn_solver|]. split; [exact try_all_honest|]. vm_compute. split; reflexivity. Qed.
(** But not exactly that many, although K is said to be the required number. *)
Theorem C86_exactly_K_refuted :
  ~ (forall eps N D d C L f edges seeds half_st gurobi minimize_K find_optimal_seeds use_adaptive k fuel sol found,
       0 <= eps -> d 0%nat = 0 -> solver N D f -> gap_honest gurobi -> gap_patient gurobi -> 0 < k ->
       gap_init eps N D d C L f edges seeds half_st gurobi (Some k) minimize_K find_optimal_seeds use_adaptive false fuel = Some (GapReturns (Some sol) found) ->
       exists rs, sol = encode rs /\ serves N D d C L eps eps rs /\ length rs = Z.to_nat k).
Proof.
  intros H. destruct (H 0 3%nat two_near one (Some 10) None (in_turn two_near) [] (at_customers two_near [1; 2]%nat) 0 try_all true false true 2 5%nat _ _
    ltac:(lia) eq_refl (in_turn_solver 3 two_near) try_all_honest try_all_patient ltac:(lia) ltac:(vm_compute; reflexivity)) as (rs & E & S & El).
  pose proof (only_encoding _ _ _ _ _ _ _ [[1; 2]%nat] rs eq_refl ltac:(repeat constructor; discriminate) E S) as ->. discriminate.
Qed.
Print Assumptions C86_exactly_K_refuted.
(** The documentation says that [increase_K_on_failure] is ignored if there is a length limit and the weights
    of its constraints are adapted.  It is not. *)
Theorem C86_increase_ignored_refuted :
  ~ (forall eps N D d C L f edges seeds half_st gurobi minimize_K find_optimal_seeds K fuel,
       0 <= eps -> d 0%nat = 0 -> solver N D f -> gap_honest gurobi -> gap_patient gurobi -> limit_set L ->
       gap_init eps N D d C L f edges seeds half_st gurobi K minimize_K find_optimal_seeds true true fuel =
       gap_init eps N D d C L f edges seeds half_st gurobi K minimize_K find_optimal_seeds true false fuel).
Proof.
  intros H. pose proof (H 0 3%nat two_near one (Some 1) (Some 100) (in_turn two_near) [] (at_customers two_near [1; 2]%nat) 0 try_all true true (Some 1) 50%nat
    ltac:(lia) eq_refl (in_turn_solver 3 two_near) try_all_honest try_all_patient ltac:(discriminate)) as E. vm_compute in E. discriminate.
Qed.
Print Assumptions C86_increase_ignored_refuted.

(** Before the largest number of routes is reached, the search stops only with a solution, and, unless the number of
    routes is to be minimized, only if the one returned was known when the search with this number of routes began. *)
Theorem C86_stops :
  forall eps N D d C L f seeds half_st gurobi minimize_K find_optimal_seeds use_adaptive increase_K maxK maxKinc startK,
    let turns := fun n => gap_turns eps N D d C L f seeds half_st gurobi minimize_K find_optimal_seeds use_adaptive increase_K maxK maxKinc n (gap_start startK) in
    forall n st s found, turns n = inl st -> turns (S n) = inr (GapReturns s found) -> (g_K st < maxK)%nat ->
      s <> None /\ (minimize_K = false -> exists m before, (m <= n)%nat /\ turns m = inl before /\ g_K before = g_K st /\
        (forall m' prev, (m' < m)%nat -> turns m' = inl prev -> (g_K prev < g_K st)%nat) /\ s = sol_of (g_best before)).
Proof. intros. eapply stops_after; try eassumption; reflexivity. Qed.
Print Assumptions C86_stops.
(** With two routes allowed the solution is not better than with one, and three or four are not tried. *)
Example C86_stops_case :
  let turns := fun n => gap_turns 0 5 pairs one (Some 4) None (in_turn pairs) (at_customers pairs [1; 3; 2; 4]%nat) 0 try_all false false false false 4 4 n (gap_start 1) in
  (exists st, turns 1%nat = inl st /\ g_K st = 2%nat) /\
  turns 2%nat = inr (GapReturns (Some [0; 1; 2; 3; 4; 0]%nat) [([0; 1; 2; 3; 4; 0]%nat, 24, 1%nat); ([0; 1; 2; 3; 4; 0]%nat, 24, 1%nat)]).
Proof. split; [eexists; split|]; vm_compute; reflexivity. Qed.

(** ** C87 *)

(** It ends, whatever the solver answers, in every mode. *)
Theorem C87_ends :
  forall eps N D d C L f edges seeds half_st gurobi minimize_K find_optimal_seeds use_adaptive increase_K K,
    (1 <= N)%nat -> (forall l, L = Some l -> 0 <= l) ->
    exists fuel0 r, forall fuel, (fuel0 <= fuel)%nat ->
      gap_init eps N D d C L f edges seeds half_st gurobi K minimize_K find_optimal_seeds use_adaptive increase_K fuel = Some r.
Proof.
  intros. eapply ends; [assumption|]. intros _ _ l E. destruct L as [v|]; [|discriminate]. cbn in E. destruct (Z.eqb_spec v 0); [discriminate|]. injection E as <-. specialize (H0 v eq_refl). lia.
Qed.
Print Assumptions C87_ends.
Example C87_case :
  gap_init 0 5 pairs one (Some 2) (Some 15) (in_turn pairs) [5; 5; 6; 6] (at_customers pairs [1; 3; 2; 4]%nat) 0 try_all None false true true true 200 =
  gap_init 0 5 pairs one (Some 2) (Some 15) (in_turn pairs) [5; 5; 6; 6] (at_customers pairs [1; 3; 2; 4]%nat) 0 try_all None false true true true 300 /\
  gap_init 0 5 pairs one (Some 2) (Some 15) (in_turn pairs) [5; 5; 6; 6] (at_customers pairs [1; 3; 2; 4]%nat) 0 (fun _ _ _ => GTimeLimit) None false true true true 300 = Some (GapReturns None []).
Proof. split; vm_compute; reflexivity. Qed.

(** ** C88 *)

(** With a capacity and no length limit it finds a solution with as few routes as the demands allow. *)
Theorem C88_fewest_routes :
  forall eps N D d c L f edges seeds half_st gurobi find_optimal_seeds use_adaptive,
    0 <= eps -> solver N D f -> ~ limit_set L -> 0 < c -> d 0%nat = 0 -> (forall i, (1 <= i < N)%nat -> 0 <= d i <= c) -> 0 < demand d (seq 1 (N - 1)) ->
    (forall K t, (1 <= K)%nat -> seeds K t <> None) -> gap_honest gurobi -> gap_patient gurobi ->
    exists rs found fuel0,
      (forall fuel, (fuel0 <= fuel)%nat ->
         gap_init eps N D d (Some c) L f edges seeds half_st gurobi None true find_optimal_seeds use_adaptive false fuel = Some (GapReturns (Some (encode rs)) found)) /\
      serves N D d (Some c) L eps eps rs /\ forall rs', packs N d c rs' -> (length rs <= length rs')%nat.
Proof. intros. apply fewest; assumption. Qed.
Print Assumptions C88_fewest_routes.
Example C88_case :
  (forall i, (1 <= i < 5)%nat -> 0 <= one i <= 2) /\ 0 < demand one (seq 1 4) /\ (forall K t, (1 <= K)%nat -> at_customers pairs [1; 3; 2; 4]%nat K t <> None) /\
  gap_honest try_all /\ gap_patient try_all /\
  gap_init 0 5 pairs one (Some 2) None (in_turn pairs) [] (at_customers pairs [1; 3; 2; 4]%nat) 0 try_all None true false true false 50 =
    Some (GapReturns (Some [0; 3; 4; 0; 1; 2; 0]%nat) [([0; 3; 4; 0; 1; 2; 0]%nat, 26, 2%nat)]).
Proof.
  split; [intros [|i] H; cbn; lia|]. split; [vm_compute; reflexivity|]. split; [apply at_customers_some|]. split; [exact try_all_honest|]. split; [exact try_all_patient|]. vm_compute. reflexivity.
Qed.
(** With a length limit only, it can end without a solution although a route for each customer would do: what it
    takes for the smallest number of routes need not be one. *)
Theorem C88_length_only_refuted :
  ~ (forall eps N D d L f edges seeds half_st gurobi find_optimal_seeds use_adaptive fuel s found,
       0 <= eps -> solver N D f -> limit_set L -> symmetric D -> triangle D -> served_alone N D d None L eps eps ->
       Permutation edges (map (D 0%nat) (seq 1 (N - 1))) -> (forall K t, (1 <= K)%nat -> seeds K t <> None) -> gap_honest gurobi -> gap_patient gurobi ->
       gap_init eps N D d None L f edges seeds half_st gurobi None true find_optimal_seeds use_adaptive false fuel = Some (GapReturns s found) ->
       s <> None).
Proof. exact length_only. Qed.
Print Assumptions C88_length_only_refuted.
(** Nor does it find one when there is nothing to carry. *)
Theorem C88_no_demand_refuted :
  ~ (forall eps N D d c L f edges seeds half_st gurobi find_optimal_seeds use_adaptive fuel,
       0 <= eps -> solver N D f -> ~ limit_set L -> 0 < c -> d 0%nat = 0 -> (forall i, (1 <= i < N)%nat -> 0 <= d i <= c) ->
       (forall K t, (1 <= K)%nat -> seeds K t <> None) -> gap_honest gurobi -> gap_patient gurobi ->
       gap_init eps N D d (Some c) L f edges seeds half_st gurobi None true find_optimal_seeds use_adaptive false fuel <> Some GapRaises).
Proof.
  intros H. apply (H 0 3%nat two_near no_demand 10 None (in_turn two_near) [] (at_customers two_near [1; 2]%nat) 0 try_all true true 50%nat ltac:(lia) (in_turn_solver 3 two_near) ltac:(intros X; exact X) ltac:(lia) eq_refl
    ltac:(intros i _; unfold no_demand; lia) (at_customers_some two_near [1; 2]%nat) try_all_honest try_all_patient). vm_compute. reflexivity.
Qed.
Print Assumptions C88_no_demand_refuted.

(** ** C89 *)

(** The last seed point does not matter: whatever it is, the result is the same. *)
Theorem C89_last_seed :
  forall eps N D d C L f edges seeds seeds' half_st gurobi K minimize_K find_optimal_seeds use_adaptive increase_K fuel,
    gap_reads gurobi -> same_but_last seeds seeds' ->
    gap_init eps N D d C L f edges seeds half_st gurobi K minimize_K find_optimal_seeds use_adaptive increase_K fuel =
    gap_init eps N D d C L f edges seeds' half_st gurobi K minimize_K find_optimal_seeds use_adaptive increase_K fuel.
Proof. intros. apply last_seed; assumption. Qed.
Print Assumptions C89_last_seed.
(** What is as cheap as possible is the assignment to the depot, as if it was the first seed, and to the seeds
    except the last. *)
Theorem C89_costs :
  forall eps N D d c L f edges seeds sd gurobi k minimize_K use_adaptive fuel sol found,
    0 <= eps -> solver N D f -> ~ limit_set L -> c <> 0 -> 0 <= d 0%nat -> gap_honest gurobi -> 0 < k -> seeds (Z.to_nat k) 0%nat = Some sd ->
    gap_init eps N D d (Some c) L f edges seeds 0 gurobi (Some k) minimize_K false use_adaptive false fuel = Some (GapReturns (Some sol) found) ->
    exists rs, sol = encode rs /\ serves N D d (Some c) L eps eps rs /\ cheapest_for N D d c (after_depot D sd) (Z.to_nat k) rs.
Proof. intros. eapply costs; eassumption. Qed.
Print Assumptions C89_costs.
Example C89_case :
  gap_reads try_all /\ same_but_last (at_customers one_two [1; 2]%nat) (fun K t => if Nat.eqb K 0 then None else Some (fun k i => if Nat.eqb (k + 1) K then one_two 3%nat i else one_two (nth ((k + t) mod 2) [1; 2]%nat 0%nat) i)) /\
  gap_init 0 4 one_two one (Some 2) None (in_turn one_two) [] (at_customers one_two [1; 2]%nat) 0 try_all (Some 2) true false true false 50 =
    Some (GapReturns (Some [0; 3; 0; 1; 2; 0]%nat) [([0; 3; 0; 1; 2; 0]%nat, 54, 2%nat)]).
Proof.
  split; [exact try_all_reads|]. split; [|vm_compute; reflexivity]. intros K t. unfold at_customers. destruct (Nat.eqb_spec K 0); [exact I|]. intros k i Hk. destruct (Nat.eqb_spec (k + 1) K); [lia|reflexivity].
Qed.
(** It is not the assignment to the seeds: a customer far from two others that are in the same place, two routes
    for two customers each, and seeds at both places.  The two are put on different routes. *)
Theorem C89_seeds_refuted :
  ~ (forall eps N D d c L f edges seeds sd gurobi k minimize_K use_adaptive fuel sol found,
       0 <= eps -> solver N D f -> ~ limit_set L -> 0 < c -> d 0%nat = 0 -> gap_honest gurobi -> gap_patient gurobi -> 0 < k -> seeds (Z.to_nat k) 0%nat = Some sd ->
       gap_init eps N D d (Some c) L f edges seeds 0 gurobi (Some k) minimize_K false use_adaptive false fuel = Some (GapReturns (Some sol) found) ->
       exists rs, sol = encode rs /\ serves N D d (Some c) L eps eps rs /\ cheapest_for N D d c sd (Z.to_nat k) rs).
Proof. exact wrong_seeds. Qed.
Print Assumptions C89_seeds_refuted.

(** ** C90 *)

(** With a length limit, whatever the solver answers: everybody is on a route of what is returned, and the routes
    are within the limits. *)
Theorem C90_recheck :
  forall eps N D d C L f edges seeds half_st gurobi minimize_K find_optimal_seeds use_adaptive increase_K K fuel s found,
    0 <= eps -> 0 <= d 0%nat -> solver N D f -> limit_set L ->
    gap_init eps N D d C L f edges seeds half_st gurobi K minimize_K find_optimal_seeds use_adaptive increase_K fuel = Some (GapReturns s found) ->
    exists rss, found_are D found rss /\ Forall (reaches N D d C L eps) rss /\ best_among minimize_K D s rss.
Proof. intros. eapply recheck; [..|eassumption]; first [assumption|now apply P_gap.set_true]. Qed.
Print Assumptions C90_recheck.
(** An answer that leaves out customers is rejected; one within the limits is not. *)
Example C90_case :
  gap_init 0 3 two_far one (Some 2) (Some 9) (in_turn two_far) [] (at_customers two_far [1; 2]%nat) 0 (fun _ _ _ => GOptimal (fun i k => Nat.eqb i 1)) (Some 1) true false false false 50 = Some (GapReturns None []) /\
  gap_init 0 3 two_far one (Some 2) (Some 9) (in_turn two_far) [] (at_customers two_far [1; 2]%nat) 0 (fun _ _ _ => GOptimal (fun i k => true)) (Some 1) true false false false 50 = Some (GapReturns (Some [0; 1; 2; 0]%nat) [([0; 1; 2; 0]%nat, 4, 1%nat)]).
Proof. split; vm_compute; reflexivity. Qed.
(** That nobody is on two routes is not checked. *)
Theorem C90_once_refuted :
  ~ (forall eps N D d C L f edges seeds half_st gurobi minimize_K find_optimal_seeds use_adaptive increase_K K fuel sol found,
       0 <= eps -> d 0%nat = 0 -> solver N D f -> limit_set L ->
       gap_init eps N D d C L f edges seeds half_st gurobi K minimize_K find_optimal_seeds use_adaptive increase_K fuel = Some (GapReturns (Some sol) found) ->
       exists rs, sol = encode rs /\ covers N rs).
Proof. exact on_two_routes. Qed.
Print Assumptions C90_once_refuted.

(** ** C91 *)

(** Wherever the sweep begins, it makes at most K groups of cones. *)
Theorem C91_at_most_K :
  forall eps d K sweep trial, 0 < eps <= 1 -> (forall n, 0 <= d n) -> 0 < demand d sweep ->
    (length (cone_groups eps d K (demand d sweep) (cone_order sweep trial)) <= K)%nat.
Proof. intros. apply groups_most; assumption. Qed.
Print Assumptions C91_at_most_K.
(** If nobody's demand is more than the average of the groups', it makes K groups that each weigh the average, here
    times K, and every customer with a demand is in one of them. *)
Theorem C91_groups :
  forall eps d K sweep trial, (1 <= K)%nat -> 0 < eps <= 1 -> (forall n, 0 <= d n) -> 0 < demand d sweep -> (trial < length sweep)%nat ->
    (forall n, In n sweep -> Z.of_nat K * d n <= demand d sweep) ->
    let groups := cone_groups eps d K (demand d sweep) (cone_order sweep trial) in
    length groups = K /\ Forall (fun g => fst g = demand d sweep) groups /\ forall n, In n sweep -> 0 < d n -> exists g, In g groups /\ In n (snd g).
Proof. intros. apply groups_K; assumption. Qed.
Print Assumptions C91_groups.
(** The demands can be shared out so that each group has the average, a customer's demand being split only among the
    groups it is in. *)
Theorem C91_shares :
  forall eps d K sweep trial, (1 <= K)%nat -> 0 < eps <= 1 -> NoDup sweep -> (forall n, 0 <= d n) -> 0 < demand d sweep -> (trial < length sweep)%nat ->
    (forall n, In n sweep -> Z.of_nat K * d n <= demand d sweep) ->
    shared_out (fun n => Z.of_nat K * d n) (demand d sweep) sweep (map snd (cone_groups eps d K (demand d sweep) (cone_order sweep trial))).
Proof. exact groups_shared. Qed.
Print Assumptions C91_shares.
Example C91_case :
  (forall n, In n [1; 2; 3]%nat -> Z.of_nat 2 * one n <= demand one [1; 2; 3]%nat) /\
  cone_groups 1 one 2 (demand one [1; 2; 3]%nat) (cone_order [1; 2; 3]%nat 1) = [(3, [2; 3]%nat); (3, [3; 1]%nat)].
Proof. split; [intros n [<-|[<-|[<-|[]]]]; cbn; lia|]. vm_compute. reflexivity. Qed.
(** A customer with more than the average makes fewer groups, even if each group is within the capacity. *)
Theorem C91_large_demand_refuted :
  ~ (forall eps d c K sweep trial, (1 <= K)%nat -> 0 < eps <= 1 -> NoDup sweep -> (forall n, 0 <= d n <= c) -> demand d sweep <= Z.of_nat K * c -> 0 < demand d sweep -> (trial < length sweep)%nat ->
       length (cone_groups eps d K (demand d sweep) (cone_order sweep trial)) = K).
Proof.
  intros H. specialize (H 1 (fun n => nth n [0; 1; 1; 10] 0) 10 2%nat [1; 2; 3]%nat 0%nat ltac:(lia) ltac:(lia) ltac:(repeat constructor; cbn; lia)
    ltac:(intros [|[|[|[|[|n]]]]]; cbn; lia) ltac:(vm_compute; discriminate) ltac:(vm_compute; reflexivity) ltac:(cbn; lia)). vm_compute in H. discriminate.
Qed.
Print Assumptions C91_large_demand_refuted.
(** The last of the trials, of which there are as many as nodes, leaves out a customer. *)
Theorem C91_last_trial_refuted :
  ~ (forall eps d K sweep trial, (1 <= K)%nat -> 0 < eps <= 1 -> NoDup sweep -> (forall n, 0 <= d n) -> 0 < demand d sweep -> (trial < S (length sweep))%nat ->
       (forall n, In n sweep -> Z.of_nat K * d n <= demand d sweep) ->
       length (cone_groups eps d K (demand d sweep) (cone_order sweep trial)) = K).
Proof.
  intros H. specialize (H 1 one 2%nat [1; 2]%nat 2%nat ltac:(lia) ltac:(lia) ltac:(repeat constructor; cbn; lia)
    ltac:(intros [|n]; cbn; lia) ltac:(vm_compute; reflexivity) ltac:(cbn; lia) ltac:(intros n [<-|[<-|[]]]; cbn; lia)). vm_compute in H. discriminate.
Qed.
Print Assumptions C91_last_trial_refuted.

(** ** C92 *)

(** An interrupt while the solver runs comes out with the best of the solutions found so far, and these serve
    everybody once within the limits. *)
Theorem C92_interrupt :
  forall eps N D d C L f edges seeds half_st gurobi minimize_K find_optimal_seeds use_adaptive increase_K K fuel s found,
    0 <= eps -> 0 <= d 0%nat -> solver N D f -> gap_honest gurobi ->
    gap_init eps N D d C L f edges seeds half_st gurobi K minimize_K find_optimal_seeds use_adaptive increase_K fuel = Some (GapInterrupted s found) ->
    exists rss, found_are D found rss /\ Forall (serves N D d C L eps eps) rss /\ best_among minimize_K D s rss.
Proof. intros. eapply result; [..|eassumption|]; [assumption..|now right]. Qed.
Print Assumptions C92_interrupt.
(** After any number of attempts the best solution stored is that. *)
Theorem C92_any_time :
  forall eps N D d C L f seeds half_st gurobi minimize_K find_optimal_seeds use_adaptive increase_K maxK startK n st,
    0 <= eps -> 0 <= d 0%nat -> solver N D f -> gap_honest gurobi -> (startK <= maxK)%nat ->
    gap_turns eps N D d C L f seeds half_st gurobi minimize_K find_optimal_seeds use_adaptive increase_K maxK (max_K_increase startK) n (gap_start startK) = inl st ->
    exists rss, found_are D (g_found st) rss /\ Forall (serves N D d C L eps eps) rss /\ best_among minimize_K D (sol_of (g_best st)) rss.
Proof. intros. eapply interrupted; eassumption. Qed.
Print Assumptions C92_any_time.
(** An interrupt in the solver, with or without the length constraints made soft, comes out at once with the best
    solution stored. *)
Theorem C92_at_once :
  forall eps N D d C L f seeds half_st gurobi minimize_K find_optimal_seeds use_adaptive increase_K maxK maxKinc n st0 st sd,
    gap_turns eps N D d C L f seeds half_st gurobi minimize_K find_optimal_seeds use_adaptive increase_K maxK maxKinc n st0 = inl st ->
    seeds (g_K st + g_inc st)%nat (g_trial st) = Some sd ->
    let p := build_gap N (stacked D half_st sd) d C (g_K st + g_inc st) L (multiplier L use_adaptive (g_tries st)) in
    gurobi (g_calls st) p false = GInterrupted \/
    gurobi (g_calls st) p false = GInfeasible /\ limit_set L /\ gurobi (g_calls st) p true = GInterrupted ->
    gap_turns eps N D d C L f seeds half_st gurobi minimize_K find_optimal_seeds use_adaptive increase_K maxK maxKinc (S n) st0 =
      inr (GapInterrupted (sol_of (g_best st)) (g_found st)).
Proof. exact interrupt_comes_out. Qed.
Print Assumptions C92_at_once.
(** A solver that is interrupted at its third call *)
Definition until_third : nat -> gap -> bool -> gap_status := fun t p b => if Nat.eqb t 2 then GInterrupted else try_all t p b.
Example C92_case :
  gap_honest until_third /\
  gap_init 0 5 pairs one (Some 2) None (in_turn pairs) [] (at_customers pairs [1; 3; 2; 4]%nat) 0 until_third None true true true false 50 =
    Some (GapInterrupted (Some [0; 3; 4; 0; 1; 2; 0]%nat) [([0; 3; 4; 0; 1; 2; 0]%nat, 26, 2%nat); ([0; 1; 2; 0; 3; 4; 0]%nat, 26, 2%nat)]).
Proof. split; [|vm_compute; reflexivity]. intros t p. unfold until_third. destruct (Nat.eqb t 2); [split; exact I|apply try_all_honest]. Qed.
