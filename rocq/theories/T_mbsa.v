(** * Properties C64, C65, C66 and C67: the matching based savings algorithm *)
From Verif Require Import Spec Spec_inter Spec_savings Spec_rfcs Spec_mbsa PyBase M_mbsa P_mbsa3 P_mbsa4 P_mbsa6.
Require Import Sorting.Sorted Lia.

(** Customers on a line *)
Definition line (pos : list Z) : matrix := fun i j => Z.abs (nth i pos 0 - nth j pos 0).
Definition dem (l : list Z) : demands := fun i => nth i l 0.
Definition D5 : matrix := line [0; -5; -6; 4; 3].
Definition d5 : demands := dem [0; 1; 2; 2; 1].
Example D5_alone : served_alone 5 D5 d5 (Some 3) (Some 12) 0 0.
Proof. intros i Hi. do 5 (destruct i as [|i]; [first [lia | split; vm_compute; intros _; discriminate]|]). lia. Qed.
Example line_metric pos : symmetric (line pos) /\ triangle (line pos).
Proof. split; [intros i j; unfold line; lia|intros i j k; unfold line; lia]. Qed.

(** ** C64 *)

(** A returned solution serves everybody once within the limits and its routes are tours of the TSP solver.
    If fewer routes are not the aim it is not dearer than a vehicle for each customer. *)
Theorem C64_result :
  forall ceps seps N D d C L minimize_K W f second mm fuel sol,
    d 0%nat = 0 -> (2 <= N)%nat -> solver N D f -> served_alone N D d C L ceps seps ->
    (forall sv n x, mm sv n = MipOptimal x -> optimal sv x) ->
    mbsa_init ceps seps N D d C L minimize_K W f second mm fuel = Some (MbReturn sol) ->
    exists gs rs, sol = encode rs /\ serves N D d C L ceps seps rs /\ toured f gs rs /\
      (minimize_K = false -> routes_cost D rs <= routes_cost D (star_routes N)).
Proof.
  intros ceps seps N D d C L minimize_K W f second mm fuel sol H1 H2 H3 H4 H5 H.
  destruct (mbsa_result ceps seps N D d C L minimize_K W f second mm H1 H2 H3 H4 H5 fuel sol H) as (gs & rs & A & B & G & _ & E & _).
  exists gs, rs. auto.
Qed.
Print Assumptions C64_result.

Example C64_run :
  mbsa_init 0 0 5 D5 d5 (Some 3) (Some 12) false 0 (brute_tsp D5) true brute 10 = Some (MbReturn (encode [[1; 2]; [3; 4]]%nat)).
Proof. vm_compute. reflexivity. Qed.

(** ** C65 *)

(** It ends after at most as many rounds as there are nodes if fewer routes are the aim, or if joining two
    routes never costs anything. *)
Theorem C65_ends_partial :
  forall ceps seps N D d C L minimize_K W f second mm,
    d 0%nat = 0 -> (2 <= N)%nat -> solver N D f -> served_alone N D d C L ceps seps ->
    (forall sv n x, mm sv n = MipOptimal x -> optimal sv x) ->
    minimize_K = true \/ joins_never_cost N f ->
    exists out, forall fuel, (N <= fuel)%nat -> mbsa_init ceps seps N D d C L minimize_K W f second mm fuel = Some out.
Proof. exact mbsa_ends. Qed.
Print Assumptions C65_ends_partial.

(** If moreover one vehicle cannot carry everything and the integer programs are solved, a solution is
    returned. *)
Theorem C65_returns_partial :
  forall ceps seps N D d C L minimize_K W f second mm,
    d 0%nat = 0 -> (2 <= N)%nat -> solver N D f -> served_alone N D d C L ceps seps ->
    (forall sv n x, mm sv n = MipOptimal x -> optimal sv x) -> (forall sv n, exists x, mm sv n = MipOptimal x) ->
    minimize_K = true \/ joins_never_cost N f ->
    ~ within C ceps (demand d (seq 1 (N - 1))) ->
    exists sol, forall fuel, (N <= fuel)%nat -> mbsa_init ceps seps N D d C L minimize_K W f second mm fuel = Some (MbReturn sol).
Proof. exact mbsa_returns. Qed.
Print Assumptions C65_returns_partial.

(** Joining costs nothing where the triangle inequality holds and the tours are shortest. *)
Theorem C65_exact_solvers : forall N D f, solver N D f -> exact_solver N D f -> triangle D -> joins_never_cost N f.
Proof. exact exact_never_cost. Qed.
Print Assumptions C65_exact_solvers.

Example C65_case :
  solver 5 D5 (brute_tsp D5) /\ exact_solver 5 D5 (brute_tsp D5) /\ triangle D5 /\ joins_never_cost 5 (brute_tsp D5) /\
  (forall sv n x, brute sv n = MipOptimal x -> optimal sv x) /\ (forall sv n, exists x, brute sv n = MipOptimal x) /\
  ~ within (Some 3) 0 (demand d5 (seq 1 (5 - 1))).
Proof.
  split; [apply brute_tsp_solver|]. split; [apply brute_tsp_exact|]. split; [apply line_metric|].
  split; [apply (exact_never_cost 5 D5); [apply brute_tsp_solver|apply brute_tsp_exact|apply line_metric]|].
  split; [exact brute_optimal|]. split; [exact brute_answers|]. intros H. vm_compute in H. now apply H.
Qed.

(** But whenever one vehicle can carry everything, there is no length limit and a detour by the depot is
    always longer, there is no solution: once one route is left a ValueError is raised. *)
Theorem C65_one_route_refuted :
  forall ceps seps N D d C L minimize_K W f second mm,
    d 0%nat = 0 -> (2 <= N)%nat -> solver N D f -> served_alone N D d C L ceps seps ->
    (forall sv n x, mm sv n = MipOptimal x -> optimal sv x) -> (forall sv n, exists x, mm sv n = MipOptimal x) ->
    exact_solver N D f -> strictly_triangle N D -> (forall n, 0 <= d n) ->
    within C ceps (demand d (seq 1 (N - 1))) -> ~ limit_set L -> W <= 0 ->
    forall fuel, (N <= fuel)%nat -> mbsa_init ceps seps N D d C L minimize_K W f second mm fuel = Some MbValueError.
Proof. exact mbsa_one_route. Qed.
Print Assumptions C65_one_route_refuted.

(** A square with the depot in the middle *)
Definition square : matrix := fun i j => if Nat.eqb i j then 0 else if Nat.eqb i 0 || Nat.eqb j 0 then 7 else if Nat.eqb (i + j) 4 || Nat.eqb (i + j) 6 then 13 else 10.
Example C65_one_route_case :
  strictly_triangle 5 square /\ served_alone 5 square (dem [0; 1; 1; 1; 1]) (Some 9) None 0 0 /\
  within (Some 9) 0 (demand (dem [0; 1; 1; 1; 1]) (seq 1 (5 - 1))) /\
  mbsa_init 0 0 5 square (dem [0; 1; 1; 1; 1]) (Some 9) None false 0 (brute_tsp square) true brute 10 = Some MbValueError.
Proof.
  split; [|split; [|split; [vm_compute; intros _; discriminate|vm_compute; reflexivity]]].
  - intros i j Hi Hj Hne. do 5 (destruct i as [|i]; [do 5 (destruct j as [|j]; [first [lia | reflexivity]|]); lia|]). lia.
  - intros i Hi. split; [|exact I]. do 5 (destruct i as [|i]; [first [lia | vm_compute; intros _; discriminate]|]). lia.
Qed.

(** And if any two customers can share a vehicle but are dearer together, and fewer routes are not the aim,
    it never ends: the best pair is refused again and again. *)
Theorem C65_never_ends_refuted :
  forall ceps seps N D d C L minimize_K W f second mm,
    d 0%nat = 0 -> (2 <= N)%nat -> solver N D f -> served_alone N D d C L ceps seps ->
    (forall sv n x, mm sv n = MipOptimal x -> optimal sv x) -> (forall sv n, exists x, mm sv n = MipOptimal x) ->
    (3 <= N)%nat -> minimize_K = false -> 0 <= W ->
    (forall i j, (1 <= i < N)%nat -> (1 <= j < N)%nat -> i <> j -> feasible D d C L ceps seps [i; j]) ->
    (forall i j, (1 <= i < N)%nat -> (1 <= j < N)%nat -> i <> j -> D i 0%nat + D 0%nat j < D i j) ->
    forall fuel, mbsa_init ceps seps N D d C L minimize_K W f second mm fuel = None.
Proof. exact mbsa_endless. Qed.
Print Assumptions C65_never_ends_refuted.

Definition hub : matrix := fun i j => if Nat.eqb i j then 0 else if Nat.eqb i 0 || Nat.eqb j 0 then 2 else 5.
Example C65_never_ends_case :
  served_alone 4 hub (dem [0; 1; 1; 1]) (Some 2) None 0 0 /\
  (forall i j, (1 <= i < 4)%nat -> (1 <= j < 4)%nat -> i <> j -> feasible hub (dem [0; 1; 1; 1]) (Some 2) None 0 0 [i; j]) /\
  (forall i j, (1 <= i < 4)%nat -> (1 <= j < 4)%nat -> i <> j -> hub i 0%nat + hub 0%nat j < hub i j) /\
  mbsa_init 0 0 4 hub (dem [0; 1; 1; 1]) (Some 2) None false 0 (brute_tsp hub) true brute 100 = None.
Proof.
  split; [|split; [|split; [|vm_compute; reflexivity]]].
  - intros i Hi. split; [|exact I]. do 4 (destruct i as [|i]; [first [lia | vm_compute; intros _; discriminate]|]). lia.
  - intros i j Hi Hj _. split; [|exact I].
    do 4 (destruct i as [|i]; [do 4 (destruct j as [|j]; [first [lia | vm_compute; intros _; discriminate]|]); lia|]). lia.
  - intros i j Hi Hj Hne. do 4 (destruct i as [|i]; [do 4 (destruct j as [|j]; [first [lia | reflexivity]|]); lia|]). lia.
Qed.

(** ** C66 *)

(** Starting from a group for each customer, the two groups that fit in one vehicle and save the most are
    joined, again and again; the routes are the tours of the groups left.  If the integer programs are
    solved, no two of those that fit save more than nothing or the value given to pairs that do not fit. *)
Theorem C66_rule :
  forall ceps seps N D d C L minimize_K W f second mm fuel sol,
    d 0%nat = 0 -> (2 <= N)%nat -> solver N D f -> served_alone N D d C L ceps seps ->
    (forall sv n x, mm sv n = MipOptimal x -> optimal sv x) ->
    mbsa_init ceps seps N D d C L minimize_K W f second mm fuel = Some (MbReturn sol) ->
    exists gs rs, sol = encode rs /\ toured f gs rs /\ best_joins d C L ceps seps f (star_routes N) gs /\
      ((forall sv n, exists x, mm sv n = MipOptimal x) ->
       forall g h rest u, Permutation gs (g :: h :: rest) -> joined g h u -> fits d C L ceps seps f g h u -> gain f g h u <= Z.max 0 W).
Proof.
  intros ceps seps N D d C L minimize_K W f second mm fuel sol H1 H2 H3 H4 H5 H.
  destruct (mbsa_result ceps seps N D d C L minimize_K W f second mm H1 H2 H3 H4 H5 fuel sol H) as (gs & rs & A & B & G & E & _ & F).
  exists gs, rs. auto.
Qed.
Print Assumptions C66_rule.

(** So the pair joined need not belong to a maximum weight matching: of the pairs 1-2, 2-3 and 3-4 that save
    2, 3 and 2 it takes 2-3, and then no other pair saves anything. *)
Definition chain : matrix := fun i j => if Nat.eqb i j then 0 else if Nat.eqb i 0 || Nat.eqb j 0 then 10 else
  if Nat.eqb (i + j) 3 || Nat.eqb (i + j) 7 then 18 else if Nat.eqb i 2 && Nat.eqb j 3 || Nat.eqb i 3 && Nat.eqb j 2 then 17 else 20.
Definition pair_gain (f : tsp) (i j : nat) : Z := gain f [i] [j] (if Nat.ltb i j then [i; j] else [j; i]).
Theorem C66_not_a_matching_refuted :
  exists N D d C f mm, d 0%nat = 0 /\ triangle D /\ solver N D f /\ served_alone N D d C None 0 0 /\
    (forall sv n x, mm sv n = MipOptimal x -> optimal sv x) /\
    mbsa_init 0 0 N D d C None false 0 f true mm 10 = Some (MbReturn (encode [[1]; [2; 3]; [4]]%nat)) /\
    (forall m, is_matching m -> Forall (fun p => 1 <= fst p < N /\ 1 <= snd p < N)%nat m -> In (2, 3)%nat m \/ In (3, 2)%nat m ->
       matching_weight (pair_gain f) m < matching_weight (pair_gain f) [(1, 2); (3, 4)]%nat) /\
    is_matching [(1, 2); (3, 4)]%nat.
Proof.
  exists 5%nat, chain, (dem [0; 1; 1; 1; 1]), (Some 2), (brute_tsp chain), brute.
  split; [reflexivity|]. split; [|split; [apply brute_tsp_solver|split; [|split; [exact brute_optimal|split; [vm_compute; reflexivity|split]]]]].
  - assert (E : forall i j, (5 <= i)%nat -> (i <> j)%nat -> 10 <= chain i j <= 20).
    { intros i j Hi Hn. unfold chain. destruct (Nat.eqb_spec i j); [congruence|]. destruct (_ || _); [lia|]. destruct (_ || _); [lia|]. destruct (_ || _); lia. }
    assert (B : forall i j, i <> j -> 10 <= chain i j <= 20).
    { intros i j Hn. unfold chain. destruct (Nat.eqb_spec i j); [congruence|]. destruct (_ || _); [lia|]. destruct (_ || _); [lia|]. destruct (_ || _); lia. }
    intros i j k. destruct (Nat.eq_dec i j) as [->|N1]; [assert (X : chain j j = 0) by (unfold chain; now rewrite Nat.eqb_refl); lia|].
    destruct (Nat.eq_dec j k) as [->|N2]; [assert (X : chain k k = 0) by (unfold chain; now rewrite Nat.eqb_refl); lia|].
    pose proof (B i j N1). pose proof (B j k N2). destruct (Nat.eq_dec i k) as [->|N3]; [assert (X : chain k k = 0) by (unfold chain; now rewrite Nat.eqb_refl); lia|].
    pose proof (B i k N3). lia.
  - intros i Hi. split; [|exact I]. do 5 (destruct i as [|i]; [first [lia | vm_compute; intros _; discriminate]|]). lia.
  - intros m Hm Hr Hin.
    assert (exists p m', (p = (2, 3) \/ p = (3, 2))%nat /\ Permutation m (p :: m')) as (p & m' & Hp & HP).
    { destruct Hin as [Hin|Hin]; destruct (in_split _ _ Hin) as (a & b & ->); eexists; exists (a ++ b); (split; [|apply Permutation_sym, Permutation_middle]); auto. }
    assert (HN : NoDup (flat_map (fun p => [fst p; snd p]) (p :: m'))).
    { eapply Permutation_NoDup; [|exact Hm]. apply Permutation_flat_map. exact HP. }
    assert (HF : Forall (fun p => 1 <= fst p < 5 /\ 1 <= snd p < 5)%nat m').
    { apply Forall_forall. intros q Hq. rewrite Forall_forall in Hr. apply Hr. eapply Permutation_in; [apply Permutation_sym; exact HP|now right]. }
    assert (Ew : matching_weight (pair_gain (brute_tsp chain)) m = 3 + matching_weight (pair_gain (brute_tsp chain)) m').
    { unfold matching_weight. assert (S : forall l l', Permutation l l' -> sumZ l = sumZ l') by (induction 1; simpl; lia).
      rewrite (S _ _ (Permutation_map _ HP)). simpl. destruct Hp as [-> | ->]; vm_compute (pair_gain _ (fst _) _); reflexivity. }
    rewrite Ew. change (matching_weight (pair_gain (brute_tsp chain)) [(1, 2); (3, 4)]%nat) with 4. 
    assert (Z0 : matching_weight (pair_gain (brute_tsp chain)) m' = 0); [|lia].
    assert (H14 : forall q, In q m' -> q = (1, 4)%nat \/ q = (4, 1)%nat).
    { intros [x y] Hq. rewrite Forall_forall in HF. specialize (HF _ Hq). simpl in HF. destruct (in_split _ _ Hq) as (a & b & Em).
      assert (Nx : NoDup [fst p; snd p; x; y]).
      { assert (X : Permutation (p :: m') ((p :: [(x, y)]) ++ (a ++ b))) by (rewrite Em; simpl; constructor; apply Permutation_sym, Permutation_middle).
        pose proof (Permutation_NoDup (Permutation_flat_map (fun p => [fst p; snd p]) X) HN) as Y. rewrite flat_map_app in Y. simpl in Y.
        do 4 (let a := fresh in let b := fresh in inversion Y as [|? ? a b]; subst; clear Y; rename b into Y; constructor; [intros K; apply a; simpl in *; tauto|]).
        constructor. }
      destruct Hp as [-> | ->]; simpl in Nx; inversion Nx as [|? ? A1 A2]; subst; inversion A2 as [|? ? B1 B2]; subst; inversion B2 as [|? ? G1 G2]; subst; simpl in *.
      all: assert (x <> 2 /\ x <> 3 /\ y <> 2 /\ y <> 3 /\ x <> y)%nat as (Q1 & Q2 & Q3 & Q4 & Q5) by (repeat split; intro; subst; tauto).
      all: destruct HF as [[F1 F2] [F3 F4]].
      all: do 5 (destruct x as [|x]; [try lia; do 5 (destruct y as [|y]; [try lia; auto|]); lia|]); lia. }
    clear - H14. unfold matching_weight. induction m' as [|q m' IH]; [reflexivity|]. simpl. rewrite IH by (intros; apply H14; now right).
    destruct (H14 q (or_introl eq_refl)) as [-> | ->]; vm_compute; reflexivity.
  - unfold is_matching. simpl. repeat constructor; simpl; lia.
Qed.
Print Assumptions C66_not_a_matching_refuted.

Example C66_case :
  best_joins d5 (Some 3) (Some 12) 0 0 (brute_tsp D5) (star_routes 5) (star_routes 5) /\ fits d5 (Some 3) (Some 12) 0 0 (brute_tsp D5) [1]%nat [2]%nat [1; 2]%nat /\
  gain (brute_tsp D5) [1]%nat [2]%nat [1; 2]%nat = 10.
Proof. split; [constructor|]. split; [split; vm_compute; intros _; discriminate|reflexivity]. Qed.

(** ** C67 *)

(** If everybody can share a vehicle with somebody, an interrupt that comes while the pair is chosen, after
    the new set is stored, or while its savings are computed carries a solution that serves everybody once
    within the limits. *)
Theorem C67_interrupted_partial :
  forall ceps seps N D d C L minimize_K W f second mm,
    d 0%nat = 0 -> (2 <= N)%nat -> symmetric D -> solver N D f -> served_alone N D d C L ceps seps ->
    (forall sv n x, mm sv n = MipOptimal x -> optimal sv x) -> everyone_has_a_partner N d C L ceps seps f ->
    forall fuel p s, In (p, s) (mbsa_points ceps seps N d C L minimize_K W f second mm fuel) -> p = Choosing \/ p = Stored \/ p = Pricing ->
    exists rs, mbsa_interrupted ceps seps D d C L W s = GreedySol (encode rs) /\ serves N D d C L ceps seps rs.
Proof. exact points_ok. Qed.
Print Assumptions C67_interrupted_partial.

Example C67_case :
  everyone_has_a_partner 5 d5 (Some 3) (Some 12) 0 0 (brute_tsp D5) /\
  exists s, In (Choosing, s) (mbsa_points 0 0 5 d5 (Some 3) (Some 12) false 0 (brute_tsp D5) true brute 5) /\
    mbsa_interrupted 0 0 D5 d5 (Some 3) (Some 12) 0 s = GreedySol (encode [[1; 2]; [3; 4]]%nat).
Proof.
  split; [|exists (mb_start 0 0 5 d5 (Some 3) (Some 12) 0 (brute_tsp D5)); split;
            [unfold mbsa_points; apply in_or_app; right; left; reflexivity|vm_compute; reflexivity]].
  intros i Hi. assert (A : forall a b, (a < b)%nat -> joined [a] [b] [a; b] /\ joined [b] [a] [a; b]).
  { intros a b Hab. split; (split; [first [reflexivity | apply perm_swap]|repeat constructor; lia]). }
  assert (i = 1 \/ i = 2 \/ i = 3 \/ i = 4)%nat as [-> | [-> | [-> | ->]]] by lia.
  - exists 2%nat, [1; 2]%nat. split; [lia|]. split; [lia|]. split; [apply A; lia|split; vm_compute; intros _; discriminate].
  - exists 1%nat, [1; 2]%nat. split; [lia|]. split; [lia|]. split; [apply A; lia|split; vm_compute; intros _; discriminate].
  - exists 4%nat, [3; 4]%nat. split; [lia|]. split; [lia|]. split; [apply A; lia|split; vm_compute; intros _; discriminate].
  - exists 3%nat, [3; 4]%nat. split; [lia|]. split; [lia|]. split; [apply A; lia|split; vm_compute; intros _; discriminate].
Qed.

(** An interrupt while the first savings are computed is a KeyError instead, on every instance with two
    customers or more. *)
Theorem C67_first_savings_refuted :
  forall ceps seps N D d C L minimize_K W f second mm fuel, (3 <= N)%nat ->
    exists s, In (Starting, s) (mbsa_points ceps seps N d C L minimize_K W f second mm fuel) /\
      mbsa_interrupted ceps seps D d C L W s = GreedyKeyError.
Proof. exact first_point_fails. Qed.
Print Assumptions C67_first_savings_refuted.

(** So is one during the choice of a pair if a customer fits with nobody. *)
Theorem C67_no_partner_refuted :
  exists N D d C f mm s, d 0%nat = 0 /\ symmetric D /\ solver N D f /\ served_alone N D d C None 0 0 /\
    (forall sv n x, mm sv n = MipOptimal x -> optimal sv x) /\
    In (Choosing, s) (mbsa_points 0 0 N d C None false 0 f true mm 5) /\ mbsa_interrupted 0 0 D d C None 0 s = GreedyKeyError.
Proof.
  exists 4%nat, (line [0; 2; 3; 5]), (dem [0; 2; 2; 4]), (Some 4), (brute_tsp (line [0; 2; 3; 5])), brute,
    (mb_start 0 0 4 (dem [0; 2; 2; 4]) (Some 4) None 0 (brute_tsp (line [0; 2; 3; 5]))).
  split; [reflexivity|]. split; [apply line_metric|]. split; [apply brute_tsp_solver|]. split; [|split; [exact brute_optimal|split]].
  - intros i Hi. split; [|exact I]. do 4 (destruct i as [|i]; [first [lia | vm_compute; intros _; discriminate]|]). lia.
  - unfold mbsa_points. apply in_or_app. right. left. reflexivity.
  - vm_compute. reflexivity.
Qed.
Print Assumptions C67_no_partner_refuted.

(** Just after a set is deleted its customers are missing from the solution. *)
Theorem C67_deleted_refuted :
  exists N D d C L f mm s sol, d 0%nat = 0 /\ symmetric D /\ solver N D f /\ served_alone N D d C L 0 0 /\
    (forall sv n x, mm sv n = MipOptimal x -> optimal sv x) /\ everyone_has_a_partner N d C L 0 0 f /\
    In (Deleted, s) (mbsa_points 0 0 N d C L false 0 f true mm 5) /\ mbsa_interrupted 0 0 D d C L 0 s = GreedySol sol /\
    exists i, (1 <= i < N)%nat /\ ~ In i sol.
Proof.
  exists 5%nat, D5, d5, (Some 3), (Some 12), (brute_tsp D5), brute.
  pose (st := mb_start 0 0 5 d5 (Some 3) (Some 12) 0 (brute_tsp D5)).
  exists (Mbst (filtered 0 1 (mb_sav st)) (del_nth 1 (mb_sets st)) (mb_cache st)), (encode [[1]; [3; 4]]%nat).
  split; [reflexivity|]. split; [apply line_metric|]. split; [apply brute_tsp_solver|]. split; [apply D5_alone|].
  split; [exact brute_optimal|]. split; [apply C67_case|]. split; [|split; [vm_compute; reflexivity|]].
  - unfold mbsa_points. apply in_or_app. right. cbn [loop_points]. right.
    change (mb_start 0 0 5 d5 (Some 3) (Some 12) 0 (brute_tsp D5)) with st.
    assert (E : mb_decide 0 false true brute st = DJoin 0 1) by (vm_compute; reflexivity). rewrite E. apply in_or_app. left. right. left. reflexivity.
  - exists 2%nat. split; [lia|]. vm_compute. intros H. decompose [or] H; try discriminate; contradiction.
Qed.
Print Assumptions C67_deleted_refuted.

(** Just before, the savings left belong to other pairs of sets than they say: a route breaks the limit. *)
Theorem C67_filtered_refuted :
  exists N D d C L f mm s rs, d 0%nat = 0 /\ symmetric D /\ solver N D f /\ served_alone N D d C L 0 0 /\
    (forall sv n x, mm sv n = MipOptimal x -> optimal sv x) /\ everyone_has_a_partner N d C L 0 0 f /\
    In (Filtered, s) (mbsa_points 0 0 N d C L false 0 f true mm 5) /\ mbsa_interrupted 0 0 D d C L 0 s = GreedySol (encode rs) /\
    covers N rs /\ ~ Forall (feasible D d C L 0 0) rs.
Proof.
  pose (d0 := dem [0; 1; 1; 1; 1]). pose (f := brute_tsp D5).
  exists 5%nat, D5, d0, (Some 3), (Some 12), f, brute.
  pose (st := mb_start 0 0 5 d0 (Some 3) (Some 12) 0 f).
  exists (Mbst (filtered 0 1 (mb_sav st)) (mb_sets st) (mb_cache st)), ([[1]; [2; 3]; [4]]%nat).
  split; [reflexivity|]. split; [apply line_metric|]. split; [apply brute_tsp_solver|].
  split; [intros i Hi; do 5 (destruct i as [|i]; [first [lia | split; vm_compute; intros _; discriminate]|]); lia|].
  split; [exact brute_optimal|]. split; [|split; [|split; [vm_compute; reflexivity|split]]].
  - intros i Hi. destruct C67_case as [P _]. destruct (P i Hi) as (j & u & Hj & Hne & HJ & [F1 F2]). exists j, u. do 3 (split; [assumption|]). split; [|exact F2].
    destruct HJ as [_ _]. revert Hne. clear - Hi Hj. intros _. do 5 (destruct i as [|i]; [try lia; do 5 (destruct j as [|j]; [try lia; vm_compute; intros _; discriminate|]); lia|]). lia.
  - unfold mbsa_points. apply in_or_app. right. cbn [loop_points]. right.
    change (mb_start 0 0 5 d0 (Some 3) (Some 12) 0 f) with st.
    assert (E : mb_decide 0 false true brute st = DJoin 0 1) by (vm_compute; reflexivity). rewrite E. apply in_or_app. left. left. reflexivity.
  - unfold covers. simpl. reflexivity.
  - intros H. inversion H as [|? ? _ H']; subst. inversion H' as [|? ? [_ F] _]; subst. vm_compute in F. now apply F.
Qed.
Print Assumptions C67_filtered_refuted.
