(** * Best of several runs; the main loop *)
From Verif Require Import Spec Spec_ls Spec_inter PyBase M_util M_cvrp_ops M_routedata M_driver Spec_driver
     P_base P_validate P_cvrp P_util P_savfam P_driver P_driver2 P_driver3 M_cli Spec_cli P_cli.
From Coq Require Import ZifyBool ZifyNat.

Lemma writes_nf rs : Forall customers_only rs -> writes rs (encode (nf rs)).
Proof. intros H. exists (nf rs). split; [reflexivity|]. split; [apply nf_same|now apply normalize_giant]. Qed.

Lemma nf_len rs : length (nf rs) = length (driven rs).
Proof. destruct (nf_same rs) as (fs & HF & HP). rewrite <- (Permutation_length HP). symmetry. exact (Forall2_len _ _ _ HF). Qed.

Lemma distinct_each rs : distinct_customers rs -> Forall customers_only rs.
Proof.
  intros [_ H]. apply Forall_forall. intros r Hr. apply Forall_forall. intros x Hx. unfold customers_only in H.
  rewrite Forall_forall in H. apply H. apply in_concat. now exists r.
Qed.

(** ** Best of n *)
Section Best.
Variables (N : nat) (D Dc : matrix) (mk : bool).
Hypothesis HN : (2 <= N)%nat.
Hypothesis HS : symmetric Dc.
Hypothesis H0 : Dc 0%nat 0%nat = 0.

Definition bInv (seen : list (list (list nat))) (st : bstate) : Prop :=
  match b_sol st with
  | None => seen = [] /\ st = mkb None None N
  | Some sol => exists l1 rs l2, seen = l1 ++ rs :: l2 /\ sol = encode (nf rs) /\ Forall customers_only rs /\
      b_f st = Some (routes_cost Dc rs) /\ b_K st = length (driven rs) /\
      (forall rs', In rs' l1 -> better_solution mk Dc rs rs') /\ (forall rs', In rs' l2 -> ~ better_solution mk Dc rs' rs)
  end.

Lemma covers_few rs : covers N rs -> (length (driven rs) <= N)%nat.
Proof using All.
  intros HC. assert (HL : (length (driven rs) <= length (concat (driven rs)))%nat).
  { unfold driven. clear. induction rs as [|r rs IH]; [cbn; lia|]. cbn [filter]. destruct r as [|x r]; [exact IH|].
    cbn [nonempty concat length]. rewrite app_length. cbn [length]. lia. }
  unfold driven in HL at 2. rewrite concat_nonempty, (Permutation_length HC), seq_length in HL. lia.
Qed.

Lemma take_one seen st rs : covers N rs -> bInv seen st ->
  exists st', take_solution Dc mk (Some (encode rs)) st = Some st' /\ bInv (seen ++ [rs]) st'.
Proof using All.
  intros HC HI. pose proof (covers_distinct N rs HC) as Hd. pose proof (distinct_each rs Hd) as Hcu. unfold take_solution.
  change (encode rs) with (0%nat :: flat_map (fun r => r ++ [0%nat]) rs) at 1. cbv iota beta.
  change (0%nat :: flat_map (fun r => r ++ [0%nat]) rs) with (encode rs). rewrite (normalize_giant rs Hcu). cbv zeta.
  rewrite objf_path, path_cost_encode, (nf_cost Dc rs HS H0), count_encode by now apply nf_customers. rewrite nf_len.
  replace (S (length (driven rs)) - 1)%nat with (length (driven rs)) by lia.
  destruct (is_better_than_inf _ _ _ _ _) eqn:E; (eexists; split; [reflexivity|]); unfold bInv in *; cbn [b_sol b_f b_K].
  - exists seen, rs, []. split; [reflexivity|]. split; [reflexivity|]. split; [exact Hcu|]. split; [reflexivity|]. split; [reflexivity|].
    split; [|easy]. intros rs' Hr'. destruct (b_sol st) as [sol|]; [|destruct HI as [-> _]; easy].
    destruct HI as (l1 & b & l2 & -> & _ & _ & Ef & EK & G1 & G2). unfold is_better_than_inf in E. rewrite Ef, EK in E.
    apply is_better_spec in E. unfold better_solution in *. apply in_app_or in Hr'. destruct Hr' as [Hr'|[<-|Hr']].
    + specialize (G1 rs' Hr'). eapply beats_trans; eassumption.
    + exact E.
    + specialize (G2 rs' Hr'). unfold beats in *. destruct mk; lia.
  - destruct (b_sol st) as [sol|] eqn:Es.
    + destruct HI as (l1 & b & l2 & -> & Eq & Hb & Ef & EK & G1 & G2). unfold is_better_than_inf in E. rewrite Ef, EK in E.
      exists l1, b, (l2 ++ [rs]). rewrite <- app_assoc. split; [reflexivity|]. split; [exact Eq|]. split; [exact Hb|]. split; [exact Ef|].
      split; [exact EK|]. split; [exact G1|]. intros rs' Hr'. apply in_app_or in Hr'. destruct Hr' as [Hr'|[<-|[]]]; [now apply G2|].
      intros HB. unfold better_solution in HB. apply is_better_spec in HB. congruence.
    + destruct HI as [-> ->]. cbn [is_better_than_inf b_f b_K] in E. pose proof (covers_few rs HC). destruct mk; [|discriminate]. lia.
Qed.

Lemma runs_all rss tail : forall seen st, Forall (covers N) rss -> bInv seen st ->
  exists st', bInv (seen ++ rss) st' /\
    repeat_runs Dc mk (map (fun rs => Returns (Some (encode rs))) rss ++ tail) st = repeat_runs Dc mk tail st'.
Proof using All.
  induction rss as [|rs rss IH]; intros seen st HF HI.
  - exists st. now rewrite app_nil_r.
  - inversion HF as [|? ? HC HF']; subst. destruct (take_one seen st rs HC HI) as (st1 & E & HI1).
    destruct (IH (seen ++ [rs]) st1 HF' HI1) as (st' & HI' & E'). exists st'. rewrite <- app_assoc in HI'. split; [exact HI'|].
    cbn [map app repeat_runs]. now rewrite E.
Qed.

Lemma bInv_best seen st : seen <> [] -> bInv seen st ->
  exists sol, b_sol st = Some sol /\ best_written mk Dc seen sol /\
    (forall v, print_best v st = if 0 <=? v then Some sol else None) /\
    (forall M, symmetric M -> M 0%nat 0%nat = 0 -> exists rs, In rs seen /\ writes rs sol /\ objf sol M = routes_cost M rs).
Proof using All.
  intros Hne HI. unfold bInv in HI. destruct (b_sol st) as [sol|] eqn:Es; [|now destruct HI].
  destruct HI as (l1 & rs & l2 & E & -> & Hcu & _ & _ & G1 & G2). exists (encode (nf rs)). split; [reflexivity|].
  split; [exists l1, rs, l2; split; [exact E|]; split; [now apply writes_nf|now split]|]. split.
  - intros v. unfold print_best. rewrite Es. destruct (0 <=? v); [|reflexivity].
    change (encode (nf rs)) with (0%nat :: flat_map (fun r => r ++ [0%nat]) (nf rs)) at 1. cbv iota beta.
    change (0%nat :: flat_map (fun r => r ++ [0%nat]) (nf rs)) with (encode (nf rs)).
    rewrite normalize_giant by now apply nf_customers. now rewrite nf_idem.
  - intros M SM M0. exists rs. split; [rewrite E; apply in_elt|]. split; [now apply writes_nf|].
    now rewrite objf_path, path_cost_encode, nf_cost.
Qed.

Lemma init_bInv : bInv [] (mkb None None N).
Proof using All. now split. Qed.

Lemma best_of_runs verbosity rss : Forall (covers N) rss -> rss <> [] -> symmetric D -> D 0%nat 0%nat = 0 ->
  exists sol, best_written mk Dc rss sol /\
    read_and_solve_a_problem N D Dc mk verbosity (map (fun rs => Returns (Some (encode rs))) rss) =
      (if 0 <=? verbosity then Some sol else None, Answer sol (objf sol D) (objf sol Dc)) /\
    exists rs, In rs rss /\ writes rs sol /\ objf sol D = routes_cost D rs /\ objf sol Dc = routes_cost Dc rs.
Proof using All.
  intros HF Hne SD D0. destruct (runs_all rss [] [] _ HF init_bInv) as (st & HI & E). cbn [app] in HI.
  destruct (bInv_best rss st Hne HI) as (sol & Es & HB & HP & HM). exists sol. split; [exact HB|]. split.
  - unfold read_and_solve_a_problem. rewrite app_nil_r in E. rewrite E. cbn [repeat_runs]. now rewrite Es, HP.
  - destruct HB as (l1 & rs & l2 & -> & HW & _). exists rs. split; [apply in_elt|]. split; [exact HW|].
    destruct HW as (ns & -> & Hsame & Hn).
    assert (EE : forall M, symmetric M -> M 0%nat 0%nat = 0 -> objf (encode ns) M = routes_cost M rs).
    { intros M SM M0. rewrite objf_path, path_cost_encode, (same_routes_cost M _ _ SM Hsame). unfold driven. now apply routes_cost_nonempty. }
    split; apply EE; assumption.
Qed.

Lemma interrupted_runs verbosity rss arg rest : Forall (covers N) rss ->
  (forall s, arg = Some s -> exists rs, s = encode rs /\ covers N rs) ->
  exists seen, (seen = rss /\ arg = None \/ exists rs, arg = Some (encode rs) /\ covers N rs /\ seen = rss ++ [rs]) /\
    (seen = [] -> read_and_solve_a_problem N D Dc mk verbosity (map (fun rs => Returns (Some (encode rs))) rss ++ Interrupt arg :: rest) =
        (None, KeyboardInterruptRaised)) /\
    (seen <> [] -> exists sol, best_written mk Dc seen sol /\
      read_and_solve_a_problem N D Dc mk verbosity (map (fun rs => Returns (Some (encode rs))) rss ++ Interrupt arg :: rest) =
        (if 0 <=? verbosity then Some sol else None, KeyboardInterruptRaised)).
Proof using All.
  intros HF Harg. destruct (runs_all rss (Interrupt arg :: rest) [] _ HF init_bInv) as (st & HI & E). cbn [app] in HI.
  unfold read_and_solve_a_problem. rewrite E. cbn [repeat_runs].
  destruct arg as [s|].
  - destruct (Harg s eq_refl) as (rs & -> & HC). destruct (take_one rss st rs HC HI) as (st' & Et & HI'). rewrite Et.
    exists (rss ++ [rs]). split; [right; now exists rs|]. split; [intros X; now apply app_eq_nil in X|]. intros Hne.
    destruct (bInv_best _ st' Hne HI') as (sol & Es & HB & HP & HM). exists sol. split; [exact HB|]. now rewrite HP.
  - exists rss. split; [now left|]. cbn [take_solution]. split.
    + intros ->. unfold bInv in HI. destruct (b_sol st) as [sol|] eqn:Es.
      * destruct HI as (l1 & rs & l2 & X & _). symmetry in X. now apply app_eq_nil in X.
      * unfold print_best. rewrite Es. now destruct (0 <=? verbosity).
    + intros Hne. destruct (bInv_best _ st Hne HI) as (sol & Es & HB & HP & HM). exists sol. split; [exact HB|]. now rewrite HP.
Qed.
End Best.
