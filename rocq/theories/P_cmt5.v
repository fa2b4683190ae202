(** * Two phase heuristic: statements for the properties *)
From Verif Require Import Spec Spec_inter Spec_savings Spec_rfcs Spec_tyagi Spec_driver Spec_cmt PyBase M_util M_psavings M_intra M_rfcs
  P_base P_tyagi P_tyagi3 P_tyagi4 P_cmt P_cmt2 P_cmt3 P_cmt4 M_cmt Spec.
Require Import ZifyBool ZifyNat Lia.

Lemma result ceps seps N D d C L f minimize_K lam mu m most assoc order1 order2 shuffled argp retries :
  served_alone N D d C L ceps seps -> solver N D f -> (limit_set L -> shortens N D f) ->
  (forall t, Permutation (order1 t) (seq 1 (N - 1)) /\ Permutation (order2 t) (seq 1 (N - 1)) /\ forall p K, Permutation (shuffled t p K) (seq 0 K)) ->
  retries <> Some 0%nat ->
  let random := match retries with None => false | Some _ => true end in
  let n := match retries with None => 1%nat | Some n => n end in
  let one := attempt1 ceps seps N D d C L f lam m order1 random in
  let two := fun t => attempt2 ceps seps N D d C L f mu most assoc order2 shuffled argp random t (p1_seeds (one t)) in
  exists rs ints fuel0,
    (forall fuel, (fuel0 <= fuel)%nat ->
       cmt_2phase_init ceps seps N D d C L f minimize_K lam mu m most assoc order1 order2 shuffled argp retries fuel = Some (Some (encode rs), ints)) /\
    serves N D d C L ceps seps rs /\
    (exists t, (t < n)%nat /\ found_by (one t) (two t) rs) /\
    (forall t rs', (t < n)%nat -> (forall u, (u < t)%nat -> gives_up (two u)) ->
       serves N D d C L ceps seps rs' -> found_by (one t) (two t) rs' -> not_beaten minimize_K D rs rs').
Proof.
  intros Ha Hf HfL Ho Hr random n one two.
  destruct (init_ok ceps seps N D d C L f Hf HfL Ha minimize_K lam mu m most assoc order1 order2 shuffled argp (fun t => proj1 (Ho t)) (fun t => proj1 (proj2 (Ho t))) (fun t => proj2 (proj2 (Ho t))) retries Hr)
    as (rs & ints & fuel0 & H1 & H2 & (H3 & H4) & _). exists rs, ints, fuel0. split; [exact H1|split; [exact H2|split; [exact H3|exact H4]]].
Qed.
Lemma result_ropt ceps seps N D d C L minimize_K lam mu m most assoc order1 order2 shuffled argp retries eps do2 do3 :
  0 <= eps -> symmetric D -> served_alone N D d C L ceps seps ->
  (forall t, Permutation (order1 t) (seq 1 (N - 1)) /\ Permutation (order2 t) (seq 1 (N - 1)) /\ forall p K, Permutation (shuffled t p K) (seq 0 K)) ->
  retries <> Some 0%nat ->
  exists fuel1, forall fuel2, (fuel1 <= fuel2)%nat ->
  exists rs ints fuel0, serves N D d C L ceps seps rs /\
    forall fuel, (fuel0 <= fuel)%nat ->
      cmt_2phase_init ceps seps N D d C L (as_tsp (fun l => solve_tsp_ropt eps fuel2 D l None do2 do3)) minimize_K lam mu m most assoc order1 order2 shuffled argp retries fuel
      = Some (Some (encode rs), ints).
Proof.
  intros He Hs Ha Ho Hr. destruct (ropt_shortens eps D N do2 do3 He Hs) as [k Hk]. exists k. intros fuel2 Hf. specialize (Hk fuel2 Hf).
  destruct (result ceps seps N D d C L _ minimize_K lam mu m most assoc order1 order2 shuffled argp retries Ha (shortens_solver _ _ _ Hk) (fun _ => Hk) Ho Hr) as (rs & ints & fuel0 & A & B & _). eauto.
Qed.
Lemma interrupts ceps seps N D d C L f minimize_K lam mu m most assoc order1 order2 shuffled argp retries :
  served_alone N D d C L ceps seps -> solver N D f -> (limit_set L -> shortens N D f) ->
  (forall t, Permutation (order1 t) (seq 1 (N - 1)) /\ Permutation (order2 t) (seq 1 (N - 1)) /\ forall p K, Permutation (shuffled t p K) (seq 0 K)) ->
  retries <> Some 0%nat ->
  exists sol ints fuel0,
    (forall fuel, (fuel0 <= fuel)%nat ->
       cmt_2phase_init ceps seps N D d C L f minimize_K lam mu m most assoc order1 order2 shuffled argp retries fuel = Some (sol, ints)) /\
    forall s, In (Some s) ints -> exists rs, s = encode rs /\ cut_short N D d C L ceps seps rs.
Proof.
  intros Ha Hf HfL Ho Hr.
  destruct (init_ok ceps seps N D d C L f Hf HfL Ha minimize_K lam mu m most assoc order1 order2 shuffled argp (fun t => proj1 (Ho t)) (fun t => proj1 (proj2 (Ho t))) (fun t => proj2 (proj2 (Ho t))) retries Hr)
    as (rs & ints & fuel0 & H1 & _ & _ & H5). eauto.
Qed.
Lemma phase_one_rule ceps seps N D d C L f m lam order :
  ~ limit_set L -> solver N D f -> Permutation order (seq 1 (N - 1)) ->
  exists rs, p1_sol (phase_one ceps seps D d C L f m lam order) ++ [0%nat] = encode rs /\ covers N rs /\
    filled D d C ceps m lam order (p1_seeds (phase_one ceps seps D d C L f m lam order)) rs.
Proof.
  intros Hl Hf Ho. apply phase_one_filled; [exact Hf| |exact Ho]. destruct (truthy L) eqn:E; [|reflexivity]. exfalso. apply Hl. apply is_set_limit. unfold M_psavings.is_set. now rewrite E.
Qed.
Lemma phase_two_seeds ceps seps N D d C L f mu seeds most repeated shuffled argp order :
  served_alone N D d C L ceps seps -> solver N D f -> (limit_set L -> shortens N D f) ->
  NoDup seeds -> (forall s, In s seeds -> (1 <= s < N)%nat) -> (seeds = [] -> (N <= 1)%nat) ->
  (forall p, Permutation (shuffled p) (seq 0 (length seeds))) -> Permutation order (seq 1 (N - 1)) ->
  exists s2 pts fuel0,
    (forall fuel, (fuel0 <= fuel)%nat -> phase_two ceps seps D d C L f mu seeds most repeated shuffled argp order fuel = Some (s2, pts)) /\
    forall sol c, s2 = Some (sol, c) ->
      exists rs, sol = encode rs /\ c = routes_cost D rs /\ serves N D d C L ceps seps rs /\ Forall2 (fun s r => In s r) seeds rs.
Proof.
  intros Ha Hf HfL Hn Hi He Hs Ho.
  assert (Hs' : forall p, Permutation (shuffled p) (range 0 (length seeds))) by (intros p; unfold range; rewrite Nat.sub_0_r; apply Hs).
  destruct (phase_two_ok ceps seps N D d C L f Hf HfL Ha mu seeds most repeated shuffled argp Hs' order Ho Hn Hi He) as (s2 & pts & fuel0 & H1 & _ & H3).
  exists s2, pts, fuel0. split; [exact H1|]. intros sol c ->. exact H3.
Qed.

(** ** A partition of two or three different numbers is the sorted order *)
Lemma nodup_lt (l : list nat) n : Permutation l (seq 0 n) -> NoDup l /\ length l = n /\ forall x, In x l -> (x < n)%nat.
Proof.
  intros H. split; [apply (Permutation_NoDup (Permutation_sym H)), seq_NoDup|split; [now rewrite (Permutation_length H), seq_length|]].
  intros x Hx. apply (Permutation_in _ H) in Hx. apply in_seq in Hx. lia.
Qed.
Lemma split3 argp : partitions argp -> argp 1%nat [12; 13; 11] = [2; 0; 1]%nat.
Proof.
  intros H. destruct (H 1%nat [12; 13; 11] ltac:(cbn; lia)) as (P & Hlo & Hhi). destruct (nodup_lt _ _ P) as (Hn & Hl & Hb).
  specialize (Hlo 0%nat ltac:(lia)). specialize (Hhi 2%nat ltac:(cbn; lia)). revert Hn Hl Hb Hlo Hhi. generalize (argp 1%nat [12; 13; 11]). intros l Hn Hl Hb Hlo Hhi.
  cbn [length] in *. destruct l as [|a [|b [|c [|? ?]]]]; cbn in Hl; try lia.
  assert (Ha := Hb a ltac:(cbn; tauto)). assert (Hbb := Hb b ltac:(cbn; tauto)). assert (Hc := Hb c ltac:(cbn; tauto)).
  assert (a <> b /\ a <> c /\ b <> c) as (N1 & N2 & N3). { inversion Hn as [|? ? X1 X2]; subst. inversion X2 as [|? ? X3 X4]; subst. cbn in X1, X3. repeat split; intros ->; tauto. }
  destruct a as [|[|[|a]]]; [| | |lia]; (destruct b as [|[|[|b]]]; [| | |lia]); (destruct c as [|[|[|c]]]; [| | |lia]); try congruence; cbn in Hlo, Hhi; lia.
Qed.
Lemma split2 argp : partitions argp -> argp 1%nat [13; 11] = [1; 0]%nat.
Proof.
  intros H. destruct (H 1%nat [13; 11] ltac:(cbn; lia)) as (P & Hlo & _). destruct (nodup_lt _ _ P) as (Hn & Hl & Hb).
  specialize (Hlo 0%nat ltac:(lia)). revert Hn Hl Hb Hlo. generalize (argp 1%nat [13; 11]). intros l Hn Hl Hb Hlo.
  cbn [length] in *. destruct l as [|a [|b [|? ?]]]; cbn in Hl; try lia.
  assert (Ha := Hb a ltac:(cbn; tauto)). assert (Hbb := Hb b ltac:(cbn; tauto)).
  assert (a <> b) as N1. { inversion Hn as [|? ? X1 X2]; subst. cbn in X1. intros ->; tauto. }
  destruct a as [|[|a]]; [| |lia]; (destruct b as [|[|b]]; [| |lia]); try congruence; cbn in Hlo; lia.
Qed.
