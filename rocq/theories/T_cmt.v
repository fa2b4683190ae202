(** * Properties C78, C79, C80 and C81: Christofides, Mingozzi and Toth's two phase heuristic *)
From Verif Require Import Spec Spec_inter Spec_savings Spec_rfcs Spec_tyagi Spec_cmt PyBase M_util M_intra M_rfcs M_cmt P_cmt5 P_cmt6.
Require Import Lia.

(** Six customers on a line, and the bundled TSP solver *)
Definition on_line (pos : list Z) : matrix := fun i j => Z.abs (nth i pos 0 - nth j pos 0).
Definition demands_of (l : list Z) : demands := fun i => nth i l 0.
Definition D7 : matrix := on_line [0; 2; 4; 6; -3; 7; -5].
Definition d7 : demands := demands_of [0; 2; 1; 2; 1; 3; 4].
Definition ropt (D : matrix) : tsp := as_tsp (fun l => solve_tsp_ropt 0 50 D l None true true).
Definition sorted_by_position (k : nat) (col : list Z) : list nat := seq 0 (length col).
Example D7_alone : served_alone 7 D7 d7 (Some 5) (Some 30) 0 0.
Proof. intros i Hi. do 7 (destruct i as [|i]; [first [lia | split; vm_compute; intros _; discriminate]|]). lia. Qed.
Example D7_symmetric : symmetric D7.
Proof. intros i j. unfold D7, on_line. lia. Qed.
(** A solver for any instance: the customers in the order given *)
Definition as_given (D : matrix) : tsp := fun l => (l ++ [0%nat], route_cost D (tl l)).
Example as_given_shortens N D : shortens N D (as_given D).
Proof. intros l _ _ _. exists l. split; [reflexivity|]. split; [reflexivity|lia]. Qed.
Example as_given_solver N D : solver N D (as_given D).
Proof. intros l _ _ _. exists l. split; reflexivity. Qed.

(** ** C78 *)

(** It ends; the routes serve everybody once and are within the limits; they are a solution one of the phases found, and no
    solution either phase found in any attempt that was made beats them. *)
Theorem C78_result :
  forall ceps seps N D d C L f minimize_K lam mu m most assoc order1 order2 shuffled argp retries,
    served_alone N D d C L ceps seps -> solver N D f -> (limit_set L -> shortens N D f) ->
    (forall t, Permutation (order1 t) (seq 1 (N - 1)) /\ Permutation (order2 t) (seq 1 (N - 1)) /\ forall p K, Permutation (shuffled t p K) (seq 0 K)) ->
    retries <> Some 0%nat ->
    let random := match retries with None => false | Some _ => true end in
    let n := match retries with None => 1%nat | Some n => n end in
    let one := attempt1 ceps seps N D d C L f lam m order1 random in
    let two := fun t => attempt2 ceps seps N D d C L f mu most assoc order2 shuffled argp random t (p1_seeds (one t)) in
    exists rs ints fuel0,
      (forall fuel, (fuel0 <= fuel)%nat ->
         cmt_2phase_init ceps seps N D d C L f minimize_K lam mu m most assoc order1 order2 shuffled argp retries fuel = Some (Some (encode rs), ints)) /\
      serves N D d C L ceps seps rs /\
      (exists t, (t < n)%nat /\ found_by (one t) (two t) rs) /\
      (forall t rs', (t < n)%nat -> (forall u, (u < t)%nat -> gives_up (two u)) ->
         serves N D d C L ceps seps rs' -> found_by (one t) (two t) rs' -> not_beaten minimize_K D rs rs').
Proof. exact result. Qed.
Print Assumptions C78_result.

(** With the bundled TSP solver *)
Theorem C78_bundled_solver :
  forall ceps seps N D d C L minimize_K lam mu m most assoc order1 order2 shuffled argp retries eps do2 do3,
    0 <= eps -> symmetric D -> served_alone N D d C L ceps seps ->
    (forall t, Permutation (order1 t) (seq 1 (N - 1)) /\ Permutation (order2 t) (seq 1 (N - 1)) /\ forall p K, Permutation (shuffled t p K) (seq 0 K)) ->
    retries <> Some 0%nat ->
    exists fuel1, forall fuel2, (fuel1 <= fuel2)%nat ->
    exists rs ints fuel0, serves N D d C L ceps seps rs /\
      forall fuel, (fuel0 <= fuel)%nat ->
        cmt_2phase_init ceps seps N D d C L (as_tsp (fun l => solve_tsp_ropt eps fuel2 D l None do2 do3)) minimize_K lam mu m most assoc order1 order2 shuffled argp retries fuel
        = Some (Some (encode rs), ints).
Proof. exact result_ropt. Qed.
Print Assumptions C78_bundled_solver.

Example C78_case :
  served_alone 7 D7 d7 (Some 5) (Some 30) 0 0 /\ symmetric D7 /\
  exists ints, cmt_2phase_init 0 0 7 D7 d7 (Some 5) (Some 30) (ropt D7) false (2, 1) (1, 1) FarthestSeed true (Times 1)
    (fun _ => seq 1 6) (fun _ => seq 1 6) (fun _ _ K => seq 0 K) sorted_by_position None 60
    = Some (Some (encode [[5; 3]; [6; 4]; [2; 1]]%nat), ints).
Proof. split; [exact D7_alone|]. split; [exact D7_symmetric|]. eexists. vm_compute. reflexivity. Qed.

(** With no retries allowed nothing is returned. *)
Theorem C78_zero_retries_refuted :
  forall ceps seps N D d C L f minimize_K lam mu m most assoc order1 order2 shuffled argp fuel,
    cmt_2phase_init ceps seps N D d C L f minimize_K lam mu m most assoc order1 order2 shuffled argp (Some 0%nat) fuel = Some (None, []).
Proof. reflexivity. Qed.
Print Assumptions C78_zero_retries_refuted.

(** With a solver that may lengthen a route the length limit can be violated: the last optimization is not checked. *)
Definition swap_last (D : matrix) : tsp := fun l =>
  let r := match tl l with a :: b :: c :: t => a :: c :: b :: t | r => r end in (0%nat :: r ++ [0%nat], route_cost D r).
Definition Dv : matrix := on_line [0; 5; 6; -5].
Theorem C78_lengthening_refuted :
  exists N D d L f, served_alone N D d None L 0 0 /\ solver N D f /\
    forall fuel, (20 <= fuel)%nat -> exists rs ints,
      cmt_2phase_init 0 0 N D d None L f false (2, 1) (1, 1) FarthestSeed true (Times 1)
        (fun _ => seq 1 3) (fun _ => seq 1 3) (fun _ _ K => seq 0 K) sorted_by_position None fuel = Some (Some (encode rs), ints) /\
      ~ Forall (feasible D d None L 0 0) rs.
Proof.
  exists 4%nat, Dv, (demands_of []), (Some 22), (swap_last Dv). split; [|split].
  - intros i Hi. do 4 (destruct i as [|i]; [first [lia | split; [exact I | vm_compute; intros _; discriminate]]|]). lia.
  - intros l Hl _ _. destruct l as [|a [|b [|c t]]]; [congruence| | |]; (eexists; split; [reflexivity|]); try reflexivity. constructor. apply perm_swap.
  - intros fuel Hf. exists [[2; 3; 1]]%nat. replace fuel with (20 + (fuel - 20))%nat by lia. generalize (fuel - 20)%nat. intros k. eexists. split; [vm_compute; reflexivity|].
    intros H. inversion H as [|r l (_ & Hr) _]; subst. vm_compute in Hr. apply Hr; [discriminate|reflexivity].
Qed.
Print Assumptions C78_lengthening_refuted.

(** ** C79 *)

(** Without a length limit, phase one's routes are determined by the seed rule and the order of insertion. *)
Theorem C79_phase_one_rule :
  forall ceps seps N D d C L f m lam order,
    ~ limit_set L -> solver N D f -> Permutation order (seq 1 (N - 1)) ->
    exists rs, p1_sol (phase_one ceps seps D d C L f m lam order) ++ [0%nat] = encode rs /\ covers N rs /\
      filled D d C ceps m lam order (p1_seeds (phase_one ceps seps D d C L f m lam order)) rs.
Proof. exact phase_one_rule. Qed.
Print Assumptions C79_phase_one_rule.

Example C79_case : solver 7 D7 (as_given D7) /\
  p1_sol (phase_one 0 0 D7 d7 (Some 5) None (as_given D7) FarthestSeed (2, 1) (seq 1 6)) = [0; 5; 3; 0; 6; 4; 0; 2; 1]%nat.
Proof. split; [apply as_given_solver|vm_compute; reflexivity]. Qed.

(** ** C80 *)

(** Phase two ends; a solution it returns has a route for each seed. *)
Theorem C80_routes_of_the_seeds :
  forall ceps seps N D d C L f mu seeds most repeated shuffled argp order,
    served_alone N D d C L ceps seps -> solver N D f -> (limit_set L -> shortens N D f) ->
    NoDup seeds -> (forall s, In s seeds -> (1 <= s < N)%nat) -> (seeds = [] -> (N <= 1)%nat) ->
    (forall p, Permutation (shuffled p) (seq 0 (length seeds))) -> Permutation order (seq 1 (N - 1)) ->
    exists s2 pts fuel0,
      (forall fuel, (fuel0 <= fuel)%nat -> phase_two ceps seps D d C L f mu seeds most repeated shuffled argp order fuel = Some (s2, pts)) /\
      forall sol c, s2 = Some (sol, c) ->
        exists rs, sol = encode rs /\ c = routes_cost D rs /\ serves N D d C L ceps seps rs /\ Forall2 (fun s r => In s r) seeds rs.
Proof. exact phase_two_seeds. Qed.
Print Assumptions C80_routes_of_the_seeds.

Example C80_case : exists pts,
  phase_two 0 0 D7 d7 (Some 5) (Some 30) (ropt D7) (1, 1) [5; 6; 1]%nat true (Some 1%nat) (fun _ => seq 0 3) sorted_by_position (seq 1 6) 60
  = Some (Some (encode [[5; 3]; [6; 4]; [1; 2]]%nat, 32), pts).
Proof. eexists. vm_compute. reflexivity. Qed.

(** In a round of the first associations ([st]: the state once the list of remaining routes has been refilled) one route is
    filled, and only with customers whose best remaining route it is.  With most_associated no other remaining route is the
    best one of more customers. *)
Theorem C80_association : forall ceps seps D d C L f mu seeds most repeated shuffled argp st0 st st' pts,
  p2_refill repeated shuffled st0 = Some st -> p2_nth st = 1%nat ->
  p2_idxs st <> [] -> NoDup (p2_idxs st) -> NoDup (p2_unrouted st) ->
  p2_round ceps seps D d C L f mu seeds most repeated shuffled argp st0 = inl (st', pts) ->
  exists k, In k (p2_idxs st) /\ (forall q, q <> k -> nth_error (p2_routes st') q = nth_error (p2_routes st) q) /\
    (forall n, In n (p2_unrouted st) -> ~ In n (p2_unrouted st') -> best_route D mu seeds (p2_idxs st) k n) /\
    (most = true -> forall q Q, In q (p2_idxs st) -> NoDup Q ->
       (forall n, In n Q -> In n (p2_unrouted st) /\ best_route D mu seeds (p2_idxs st) q n) ->
       exists P, NoDup P /\ (forall n, In n P -> In n (p2_unrouted st) /\ best_route D mu seeds (p2_idxs st) k n) /\ (length Q <= length P)%nat).
Proof. exact round_associates. Qed.
Print Assumptions C80_association.

(** The customers of a route are tried in the order of decreasing regret. *)
Theorem C80_regret_order : forall D mu seeds k others assoc,
  Permutation (p2_candidates D mu seeds k others assoc) assoc /\
  forall a i j b, p2_candidates D mu seeds k others assoc = a ++ i :: j :: b ->
    forall x y, regret D mu seeds others k i x -> regret D mu seeds others k j y -> y <= x.
Proof. exact by_regret. Qed.
Print Assumptions C80_regret_order.

(** A round that fills the route of customer 5 with customers 3 and 2 *)
Example C80_association_case :
  let st0 := mkp2 (map (fun s => mkrs [0; s]%nat (d7 s) (2 * D7 0%nat s) false) [5; 6; 1]%nat) [] [2; 3; 4]%nat [] 1 false true 0 in
  match p2_refill (Some 1%nat) (fun _ => seq 0 3) st0 with
  | Some st => p2_nth st = 1%nat /\ p2_idxs st = [0; 1; 2]%nat /\
      match p2_round 0 0 D7 d7 None None (ropt D7) (1, 1) [5; 6; 1]%nat true (Some 1%nat) (fun _ => seq 0 3) sorted_by_position st0 with
      | inl (st', _) => map rs_route (p2_routes st') = [[0; 5; 3; 2]; [0; 6]; [0; 1]]%nat /\ p2_unrouted st' = [4]%nat
      | inr _ => False
      end
  | None => False
  end.
Proof. vm_compute. repeat split. Qed.
Example C80_regret_case : p2_candidates D7 (1, 1) [5; 6; 1]%nat 0 [1; 2]%nat [2; 3]%nat = [3; 2]%nat.
Proof. vm_compute. reflexivity. Qed.

(** Second best routes are to be tried when associations are repeated twice: but phase two gives up although there is room
    for the only customer left on the second best of three routes. *)
Definition D5 : matrix := fun i j =>
  let a := Nat.min i j in let b := Nat.max i j in
  if Nat.eqb a b then 0 else if Nat.eqb b 4 then match a with 0%nat => 10 | 1%nat => 12 | 2%nat => 13 | _ => 11 end else 10.
Theorem C80_second_best_refuted :
  exists N D d C seeds x best second,
    NoDup seeds /\ served_alone N D d C None 0 0 /\
    p1_seeds (phase_one 0 0 D d C None (as_given D) FirstSeed (2, 1) (seq 1 (N - 1))) = seeds /\
    (forall y, (1 <= y < N)%nat -> ~ In y seeds -> y = x) /\
    (forall k, (k < length seeds)%nat -> k <> best -> k <> second ->
       eps_of D (1, 1) seeds best x < eps_of D (1, 1) seeds second x < eps_of D (1, 1) seeds k x) /\
    feasible D d C None 0 0 [nth second seeds 0%nat; x] /\
    forall argp, partitions argp ->
      gives_up (phase_two 0 0 D d C None (as_given D) (1, 1) seeds false (Some 2%nat) (fun _ => seq 0 (length seeds)) argp (seq 1 (N - 1))).
Proof.
  exists 5%nat, D5, (demands_of [0; 3; 9; 9; 2]), (Some 10), [1; 2; 3]%nat, 4%nat, 2%nat, 0%nat.
  split; [repeat constructor; cbn; lia|]. split; [|split; [vm_compute; reflexivity|split; [|split; [|split]]]].
  - intros i Hi. do 5 (destruct i as [|i]; [first [lia | split; [vm_compute; intros _; discriminate|exact I]]|]). lia.
  - intros y Hy Hn. cbn [In] in Hn. lia.
  - intros k Hk H1 H2. cbn [length] in Hk. assert (k = 1%nat) by lia. subst k. vm_compute. split; reflexivity.
  - split; [vm_compute; intros _; discriminate|exact I].
  - intros argp Ha. unfold gives_up. eexists. exists 20%nat. intros fuel Hf. replace fuel with (20 + (fuel - 20))%nat by lia. generalize (fuel - 20)%nat. intros k.
    pose proof (split3 argp Ha) as E3. pose proof (split2 argp Ha) as E2.
    vm_compute. rewrite E3. vm_compute. rewrite E2. vm_compute. reflexivity.
Qed.
Print Assumptions C80_second_best_refuted.

(** ** C81 *)

(** Whatever an interrupt hands over, its routes are within the limits and serve nobody twice; those left out fit on one route.
    Missing: that nobody is left out, which is not so, see below. *)
Theorem C81_interrupts_partial :
  forall ceps seps N D d C L f minimize_K lam mu m most assoc order1 order2 shuffled argp retries,
    served_alone N D d C L ceps seps -> solver N D f -> (limit_set L -> shortens N D f) ->
    (forall t, Permutation (order1 t) (seq 1 (N - 1)) /\ Permutation (order2 t) (seq 1 (N - 1)) /\ forall p K, Permutation (shuffled t p K) (seq 0 K)) ->
    retries <> Some 0%nat ->
    exists sol ints fuel0,
      (forall fuel, (fuel0 <= fuel)%nat ->
         cmt_2phase_init ceps seps N D d C L f minimize_K lam mu m most assoc order1 order2 shuffled argp retries fuel = Some (sol, ints)) /\
      forall s, In (Some s) ints -> exists rs, s = encode rs /\ cut_short N D d C L ceps seps rs.
Proof. exact interrupts. Qed.
Print Assumptions C81_interrupts_partial.

(** Interrupted in phase one, two customers are on none of the routes handed over. *)
Theorem C81_lost_refuted :
  exists N D d C L f sol, served_alone N D d C L 0 0 /\ shortens N D f /\
    (forall fuel, (20 <= fuel)%nat -> exists best ints,
       cmt_2phase_init 0 0 N D d C L f false (2, 1) (1, 1) FarthestSeed true (Times 1)
         (fun _ => seq 1 (N - 1)) (fun _ => seq 1 (N - 1)) (fun _ _ K => seq 0 K) sorted_by_position None fuel = Some (best, ints) /\
       In (Some sol) ints) /\
    exists a b, (1 <= a < b)%nat /\ (b < N)%nat /\ ~ In a sol /\ ~ In b sol.
Proof.
  exists 7%nat, D7, d7, (Some 5), (Some 30), (as_given D7), (encode [[1]; [2]; [4]; [6]]%nat). split; [exact D7_alone|]. split; [apply as_given_shortens|]. split.
  - intros fuel Hf. replace fuel with (20 + (fuel - 20))%nat by lia. generalize (fuel - 20)%nat. intros k. eexists. eexists. split; [vm_compute; reflexivity|]. cbn [In]. tauto.
  - exists 3%nat, 5%nat. split; [lia|]. split; [lia|]. split; cbv; lia.
Qed.
Print Assumptions C81_lost_refuted.

(** Interrupted in phase two, a solution that leaves somebody out is handed over, although phase one has found one that serves
    everybody. *)
Theorem C81_incomplete_preferred_refuted :
  exists N D d C L f rs1 sol, served_alone N D d C L 0 0 /\ shortens N D f /\ serves N D d C L 0 0 rs1 /\
    let one := attempt1 0 0 N D d C L f (2, 1) FarthestSeed (fun _ => seq 1 (N - 1)) false 0 in
    p1_sol one ++ [0%nat] = encode rs1 /\
    (forall fuel, (20 <= fuel)%nat -> exists s2 pts p,
       attempt2 0 0 N D d C L f (1, 1) true (Times 1) (fun _ => seq 1 (N - 1)) (fun _ _ K => seq 0 K) sorted_by_position false 0 (p1_seeds one) fuel = Some (s2, pts) /\
       In p pts /\ option_map (fun r => fst (fst r)) (pick false None (rated1 one) (rated_interrupted D (p2_interrupted f p))) = Some sol) /\
    exists c, (1 <= c < N)%nat /\ ~ In c sol.
Proof.
  exists 7%nat, D7, d7, (Some 5), (Some 30), (as_given D7), [[5; 3]; [6; 4]; [2; 1]]%nat, (encode [[5; 3]; [6; 4]; [2]]%nat).
  split; [exact D7_alone|]. split; [apply as_given_shortens|]. split; [|split; [vm_compute; reflexivity|split]].
  - split; [|split].
    + apply NoDup_Permutation; [repeat constructor; cbn; lia|apply seq_NoDup|]. intros x. cbn. lia.
    + repeat constructor; discriminate.
    + constructor; [split; vm_compute; intros _; discriminate|]. constructor; [split; vm_compute; intros _; discriminate|]. constructor; [split; vm_compute; intros _; discriminate|]. constructor.
  - intros fuel Hf. replace fuel with (20 + (fuel - 20))%nat by lia. generalize (fuel - 20)%nat. intros k. eexists. eexists. eexists. split; [vm_compute; reflexivity|]. split; [do 5 right; left; reflexivity|]. vm_compute. reflexivity.
  - exists 1%nat. split; [lia|]. cbv. lia.
Qed.
Print Assumptions C81_incomplete_preferred_refuted.
