(** * The generalized assignment heuristic: results, interrupts and its end *)
From Verif Require Import Spec_rfcs Spec_inter Spec_savings PyBase M_util M_psavings P_base P_util M_gap Spec_gap P_gap P_gap2 Spec.
From Coq Require Import ZifyBool ZifyNat Lia List Permutation.
Import ListNotations.
Local Open Scope Z_scope.

Lemma best_found mk D found rss s : found_are D found rss -> s = sol_of (best_of mk found) -> best_among mk D s rss.
Proof.
  intros EF ->. pose proof (best_of_spec mk found) as H. destruct (best_of mk found) as [b|]; cbn.
  - destruct H as (l1 & l2 & E & H1 & H2). assert (Hb : In b found) by (rewrite E; apply in_or_app; right; now left).
    rewrite EF in Hb. apply in_map_iff in Hb. destruct Hb as (rs & <- & Hr). exists rs. split; [reflexivity|]. split; [exact Hr|].
    apply Forall_forall. intros rs' Hr'. unfold not_beaten. intros HB.
    assert (Hc : In (encode rs', routes_cost D rs', length rs') found) by (rewrite EF; apply in_map_iff; eauto).
    rewrite E in Hc. apply in_app_iff in Hc. destruct Hc as [Hc|[Hc|Hc]].
    + specialize (H1 _ Hc). unfold cbeats, beats in *. cbn [fst snd] in *. destruct mk; lia.
    + injection Hc as _ Ef Ek. unfold beats in HB. rewrite Ef, Ek in HB. destruct mk; lia.
    + exact (H2 _ Hc HB).
  - unfold found_are in EF. rewrite EF in H. now apply map_eq_nil in H.
Qed.

Section Whole.
Variables (eps : Z) (N : nat) (D : matrix) (d : demands) (C L : limit) (f : tsp) (edges : list Z).
Variables (seeds : nat -> nat -> option (nat -> nat -> Z)) (half_st : Z) (gurobi : nat -> gap -> bool -> gap_status).
Variables (mk fo ua ik : bool).
Notation turns := (gap_turns eps N D d C L f seeds half_st gurobi mk fo ua ik).
Notation init K := (gap_init eps N D d C L f edges seeds half_st gurobi K mk fo ua ik).
Notation serv := (serves N D d C L eps eps).

Section Inv.
Variables (maxK startK : nat) (P : list (list nat) -> Prop).
Hypothesis HE : evaluates eps N D d C L f half_st gurobi ua ik maxK (max_K_increase startK) P.
Lemma start_inv : (startK <= maxK)%nat -> inv D mk ik maxK (max_K_increase startK) P (gap_start startK).
Proof. intros H. split; [exact H|]. split; [cbn; unfold most_K; destruct ik; lia|]. split; [reflexivity|]. exists []. split; [reflexivity|constructor]. Qed.
Lemma reached n : (startK <= maxK)%nat -> result_ok D mk ik maxK (max_K_increase startK) P (turns maxK (max_K_increase startK) n (gap_start startK)).
Proof. intros H. apply turns_ok; [exact HE|now apply start_inv]. Qed.
End Inv.

Hypothesis Heps : 0 <= eps.
Hypothesis Hd0 : 0 <= d 0%nat.
Hypothesis Hf : solver N D f.

Lemma honest_ok : gap_honest gurobi -> forall maxK startK, evaluates eps N D d C L f half_st gurobi ua ik maxK (max_K_increase startK) (fun rs => serv rs /\ (length rs <= most_K ik maxK (max_K_increase startK))%nat).
Proof.
  intros HG maxK startK t sd K tries a s HK ES Ev. unfold solve_gap in ES. set (p := build_gap _ _ _ _ _ _ _) in ES. destruct (HG t p) as [G1 G2].
  assert (GY : forall Y, hard p Y -> a = to_assignments Y N K -> exists rs, s = (encode rs, routes_cost D rs, length rs) /\ serv rs /\ (length rs <= most_K ik maxK (max_K_increase startK))%nat).
  { intros Y HY ->. destruct (hard_serves eps N D d C L f Heps Hd0 Hf p Y s eq_refl eq_refl eq_refl HY Ev) as (rs & E & V & Hl). exists rs. split; [exact E|]. split; [exact V|]. cbn in Hl. lia. }
  destruct (gurobi t p false) as [Y| | | |]; [|destruct (is_set (gp_L p)); [destruct (gurobi t p true) as [Y| | | |]|discriminate]|discriminate..]; try discriminate; injection ES as <-.
  - apply (GY Y); [tauto|reflexivity].
  - apply (GY Y); [assumption|reflexivity].
Qed.
Lemma any_ok : is_set L = true -> forall maxK startK, evaluates eps N D d C L f half_st gurobi ua ik maxK (max_K_increase startK) (reaches N D d C L eps).
Proof.
  intros HL maxK startK t sd K tries a s HK ES Ev. unfold solve_gap in ES. set (p := build_gap _ _ _ _ _ _ _) in ES.
  assert (GY : forall Y, a = to_assignments Y N K -> exists rs, s = (encode rs, routes_cost D rs, length rs) /\ reaches N D d C L eps rs).
  { intros Y ->. destruct (evaluate_spec eps N D d C L f Hd0 Hf _ _ (assign_valid N Y K) Ev) as (rs & F & E & FL & FC & FA). exists rs. split; [exact E|]. split; [now apply FA|].
    specialize (FC HL). rewrite Forall_forall in *. intros r Hr. split; [split; [now apply FC|now apply FL]|]. intros i Hi.
    assert (Hc : In i (concat (to_assignments Y N K))).
    { rewrite <- concat_filter_nonempty. apply (Permutation_in _ (concat_perms _ _ F)). apply in_concat. eauto. }
    apply in_concat in Hc. destruct Hc as (r' & Hr' & Hi'). pose proof (assign_valid N Y K) as V. rewrite Forall_forall in V. now apply (V r' Hr'). }
  destruct (gurobi t p false) as [Y| | | |]; [|destruct (is_set (gp_L p)); [destruct (gurobi t p true) as [Y| | | |]|discriminate]|discriminate..]; try discriminate; injection ES as <-; now apply (GY Y).
Qed.

(** How a run ended *)
Lemma init_cases K fuel r : init K fuel = Some r ->
  r = GapRaises \/ r = GapReturns None [] \/
  exists startK maxK, start_K N D d C L f edges K fuel = Some (StartAt startK maxK) /\ (startK <= maxK)%nat /\ turns maxK (max_K_increase startK) fuel (gap_start startK) = inr r.
Proof.
  unfold gap_init. destruct (start_K _ _ _ _ _ _ _ _ _) as [[startK maxK|]|]; [|intros E; injection E as <-; auto|discriminate].
  destruct (maxK <? startK)%nat eqn:E; [intros G; injection G as <-; auto|]. apply Nat.ltb_ge in E. destruct (turns _ _ _ _) as [st|r'] eqn:ET; [discriminate|].
  intros G. injection G as <-. right. right. exists startK, maxK. auto.
Qed.
Definition outcome_of (r : gap_out) : option (option (list nat) * list (list nat * Z * nat)) :=
  match r with GapReturns s found | GapInterrupted s found => Some (s, found) | GapRaises => None end.
Lemma result K fuel r s found : gap_honest gurobi -> init K fuel = Some r -> r = GapReturns s found \/ r = GapInterrupted s found ->
  exists rss, found_are D found rss /\ Forall serv rss /\ best_among mk D s rss.
Proof.
  intros HG E Er. destruct (init_cases K fuel r E) as [->|[->|(startK & maxK & _ & HK & ET)]].
  - destruct Er; discriminate.
  - destruct Er as [Er|Er]; [injection Er as <- <-|discriminate]. exists []. repeat split; constructor.
  - pose proof (reached maxK startK _ (honest_ok HG maxK startK) fuel HK) as G. rewrite ET in G.
    assert (G' : out_ok D mk (fun rs => serv rs /\ (length rs <= most_K ik maxK (max_K_increase startK))%nat) s found) by (destruct Er; subst r; exact G).
    destruct G' as [Es (rss & EF & FP)]. exists rss. split; [exact EF|]. split; [|now apply best_found with found]. eapply Forall_impl; [|exact FP]. cbn. tauto.
Qed.
Lemma at_most_K k fuel s found : gap_honest gurobi -> ik = false -> 0 < k -> init (Some k) fuel = Some (GapReturns s found) ->
  exists rss, found_are D found rss /\ Forall (fun rs => (length rs <= Z.to_nat k)%nat) rss.
Proof.
  intros HG Hik Hk E. destruct (init_cases (Some k) fuel _ E) as [E1|[E1|(startK & maxK & ES & HK & ET)]]; [discriminate|injection E1 as -> ->; exists []; split; [reflexivity|constructor]|].
  unfold start_K, truthy in ES. destruct (Z.eqb_spec k 0); [lia|]. injection ES as <- <-.
  pose proof (reached (Z.to_nat k) (Z.to_nat k) _ (honest_ok HG (Z.to_nat k) (Z.to_nat k)) fuel HK) as G. rewrite ET in G. destruct G as [_ (rss & EF & FP)].
  exists rss. split; [exact EF|]. eapply Forall_impl; [|exact FP]. cbn. intros rs [_ H]. unfold most_K in H. rewrite Hik in H. exact H.
Qed.
Lemma recheck K fuel s found : is_set L = true -> init K fuel = Some (GapReturns s found) ->
  exists rss, found_are D found rss /\ Forall (reaches N D d C L eps) rss /\ best_among mk D s rss.
Proof.
  intros HL E. destruct (init_cases K fuel _ E) as [E1|[E1|(startK & maxK & _ & HK & ET)]]; [discriminate|injection E1 as -> ->; exists []; repeat split; constructor|].
  pose proof (reached maxK startK _ (any_ok HL maxK startK) fuel HK) as G. rewrite ET in G. destruct G as [Es (rss & EF & FP)]. exists rss. split; [exact EF|]. split; [exact FP|]. now apply best_found with found.
Qed.
Lemma interrupted maxK startK n st : gap_honest gurobi -> (startK <= maxK)%nat -> turns maxK (max_K_increase startK) n (gap_start startK) = inl st ->
  exists rss, found_are D (g_found st) rss /\ Forall serv rss /\ best_among mk D (sol_of (g_best st)) rss.
Proof.
  intros HG HK E. pose proof (reached maxK startK _ (honest_ok HG maxK startK) n HK) as G. rewrite E in G. destruct G as (_ & _ & EB & rss & EF & FP).
  exists rss. split; [exact EF|]. split; [eapply Forall_impl; [|exact FP]; cbn; tauto|]. rewrite EB. now apply best_found with (g_found st).
Qed.
Lemma ends K : (1 <= N)%nat -> (truthy K = None -> truthy C = None -> forall l, truthy L = Some l -> 0 < l) -> exists f0 r, forall fuel, (f0 <= fuel)%nat -> init K fuel = Some r.
Proof.
  clear Heps Hd0 Hf. intros HN HL. assert (G : exists f0 s, forall fuel, (f0 <= fuel)%nat -> start_K N D d C L f edges K fuel = Some s).
  { unfold start_K. destruct (truthy K); [exists 0%nat; eauto|]. destruct (truthy C); [exists 0%nat; eauto|]. destruct (truthy L) as [l|]; [|exists 0%nat; eauto].
    destruct (fit_ends l (snd (f (seq 1 (N - 1)))) edges (Z.to_nat (ceil_div (snd (f (seq 1 (N - 1)))) l)) (HL eq_refl eq_refl l eq_refl)) as (f0 & r & G).
    exists f0. eexists. intros fuel Hf. rewrite G by exact Hf. reflexivity. }
  destruct G as (f0 & s & G). destruct s as [startK maxK|].
  - destruct (maxK <? startK)%nat eqn:E; [exists f0, (GapReturns None []); intros fuel Hf; unfold gap_init; rewrite G by exact Hf; now rewrite E|].
    destruct (halts_all eps N D d C L f seeds half_st gurobi mk fo ua ik maxK (max_K_increase startK) (fun _ => True) (gap_start startK) HN ltac:(cbn; lia) ltac:(cbn; lia)) as (n & r & ET).
    exists (Nat.max f0 n), r. intros fuel Hf. unfold gap_init. rewrite G by lia. rewrite E. rewrite (turns_more _ _ _ _ _ _ _ _ _ _ _ _ _ _ _ _ n _ r ET) by lia. reflexivity.
  - exists f0, GapRaises. intros fuel Hf. unfold gap_init. now rewrite G.
Qed.
End Whole.
