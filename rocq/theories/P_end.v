(** * Proofs: from the heuristics to what the command line reports *)
From Verif Require Import Spec Spec_inter Spec_petal Spec_driver PyBase M_util M_cvrp_ops M_cli Spec_cli P_base P_cvrp P_cli2 P_cli3 P_lr3opt4 Spec_all P_all Spec_end.
From Coq Require Import ZifyBool ZifyNat Lia Arith List Permutation.
Import ListNotations.
Local Open Scope Z_scope.

Lemma driven_concat rs : concat (driven rs) = concat rs.
Proof. unfold driven. induction rs as [|[|x r] rs IH]; cbn [filter nonempty concat app]; [reflexivity|exact IH|]. now rewrite IH. Qed.
Lemma driven_forall (P : list nat -> Prop) rs : Forall P rs -> Forall P (driven rs).
Proof. unfold driven. rewrite !Forall_forall. intros H x Hx. apply filter_In in Hx. now apply H. Qed.

Lemma serves_proper N D d C L eps rs : (2 <= N)%nat -> serves_all N D d C L eps rs -> proper_solution N rs.
Proof.
  intros HN (HC & _). unfold covers in HC. split; [split|split].
  - apply (Permutation_NoDup (Permutation_sym HC)), seq_NoDup.
  - apply Forall_forall. intros c Hc. apply (Permutation_in _ HC), in_seq in Hc. lia.
  - apply Forall_forall. intros c Hc. apply (Permutation_in _ HC), in_seq in Hc. lia.
  - intros E. rewrite E in HC. apply Permutation_nil in HC. destruct N as [|[|N]]; try lia. discriminate.
Qed.

(** ** VeRyPy.py *)
Section Main.
Variables (eps : Z) (o : options) (run : nat -> M_cli.problem -> algo_outcome) (ps : list M_cli.problem) (algos : list nat).
Hypothesis Heps : 0 <= eps.
Hypothesis Hops : forall op, In op (o_ls o) -> (op <= 3)%nat.
Hypothesis Hps : Forall proper_problem ps.
Hypothesis Hpr : Forall (printable o) ps.
Hypothesis Hprob : forall p, In p ps -> Spec_all.problem (p_N p) (p_Dc p) (p_d p) (p_C p) (p_L p) eps.
Hypothesis Hcall : forall p a, In p ps -> In a algos -> library_call eps p (run a p).

Lemma call_proper p a : In p ps -> In a algos -> proper_outcome (p_N p) (run a p).
Proof using All.
  intros Hp Ha. specialize (Hcall p a Hp Ha). unfold library_call in Hcall. destruct (run a p) as [[s|]|arg|]; try easy.
  - intros s' [= <-]. destruct Hcall as [->|HR]; [now left|right]. destruct (returned_served _ _ _ _ _ _ _ (Hprob p Hp) HR) as (rs & E & HS).
    exists rs. split; [exact E|]. apply (serves_proper _ _ _ _ _ _ _ (pb_size _ _ _ _ _ _ (Hprob p Hp)) HS).
Qed.

Lemma until_incl {A} (f : A -> bool) l : forall x, In x (until_interrupt f l) -> In x l.
Proof using. clear. induction l as [|y l IH]; intros x; cbn [until_interrupt]; [easy|]. intros [->|H]; [now left|]. destruct (f y); [easy|]. right. now apply IH. Qed.

Lemma solved_feasible job r : In job (list_prod ps algos) -> job_report eps o run job r ->
  forall file a sol ok q K, r = Solved file a sol ok q K false ->
  ok = true /\ file = p_file (fst job) /\ a = snd job /\
  exists rs, sol = encode rs /\ serves_all (p_N (fst job)) (p_Dc (fst job)) (p_d (fst job)) (p_C (fst job)) (p_L (fst job)) eps rs /\
    q = routes_cost (shown_matrix o (fst job)) rs /\ K = length rs /\ Forall (fun r => r <> []) rs.
Proof using All.
  destruct job as [p a0]. intros Hj HJ file a sol ok q K ->. apply in_prod_iff in Hj. destruct Hj as (Hp & Ha). unfold job_report in HJ. cbn [fst snd].
  destruct (o_simulate o); [discriminate|]. pose proof (Hcall p a0 Hp Ha) as HCL. unfold library_call in HCL.
  destruct (run a0 p) as [[s|]|arg|] eqn:Er; cbn [found interrupted] in HJ; try discriminate.
  2:{ destruct arg as [[|x s]|]; try discriminate. destruct HJ as (rs & _ & _ & ns & ok' & E & _). discriminate. }
  destruct s as [|x s]; [discriminate|]. destruct HCL as [E|HR]; [discriminate|].
  destruct (returned_served _ _ _ _ _ _ _ (Hprob p Hp) HR) as (rs1 & E1 & HS1).
  destruct HJ as (rs & E & HP & ns & ok' & E2 & Hne & HL & HPm & Hok & Hgood & _). injection E2 as -> -> -> -> -> ->.
  assert (Hsame : rs = rs1).
  { apply encode_inj; [|apply (P_savfam.covers_only (p_N p)), HS1|congruence]. destruct HP as ((_ & HP) & _). apply Forall_forall. intros r Hr. unfold customers_only in *.
    rewrite Forall_forall in *. intros c Hc. apply HP. apply in_concat. now exists r. }
  subst rs1.
  assert (HC : covers (p_N p) rs) by apply HS1.
  assert (HF : Forall (feasible (p_Dc p) (p_d p) (p_C p) (p_L p) eps eps) (driven rs)) by apply driven_forall, HS1.
  specialize (Hgood HC HF). subst ok'. split; [reflexivity|]. split; [reflexivity|]. split; [reflexivity|].
  exists ns. split; [reflexivity|]. split; [|easy]. exact (proj1 Hok eq_refl).
Qed.

Lemma reports_feasible : exists fuel0 reports, Forall2 (job_report eps o run) (until_interrupt (stops o run) (list_prod ps algos)) reports /\
  (forall fuel, (fuel0 <= fuel)%nat -> main eps o run ps algos fuel = (reports, if existsb (stops o run) (list_prod ps algos) then Stopped else AllDone)) /\
  forall file a sol ok q K, In (Solved file a sol ok q K false) reports ->
    ok = true /\ exists p rs, In p ps /\ file = p_file p /\ sol = encode rs /\ Forall (fun r => r <> []) rs /\
      serves_all (p_N p) (p_Dc p) (p_d p) (p_C p) (p_L p) eps rs /\ q = routes_cost (shown_matrix o p) rs /\ K = length rs.
Proof using All.
  destruct (main_loop eps o Heps Hops run ps algos Hps call_proper Hpr) as (fuel0 & reports & HF & HM).
  exists fuel0, reports. split; [exact HF|]. split; [exact HM|]. intros file a sol ok q K Hin.
  assert (HJ : exists job, In job (list_prod ps algos) /\ job_report eps o run job (Solved file a sol ok q K false)).
  { pose proof (until_incl (stops o run) (list_prod ps algos)) as HU. revert Hin HU. clear -HF. induction HF as [|j r l rs H HF IH]; intros Hin HU; [easy|].
    destruct Hin as [->|Hin]; [exists j; split; [apply HU; now left|exact H]|]. apply IH; [exact Hin|]. intros x Hx. apply HU. now right. }
  destruct HJ as (job & Hj & HJ). destruct (solved_feasible job _ Hj HJ _ _ _ _ _ _ eq_refl) as (E1 & E2 & _ & rs & E3 & HS & E4 & E5 & Hne).
  split; [exact E1|]. destruct job as [p a0]. apply in_prod_iff in Hj. cbn [fst snd] in *. exists p, rs. tauto.
Qed.
End Main.

Lemma same_nonempty rs ns : same_routes (driven rs) ns -> driven ns = ns.
Proof.
  intros (fs & HF & HP). assert (H : forall r, In r ns -> nonempty r = true).
  { intros r Hr. apply (Permutation_in _ (Permutation_sym HP)) in Hr. clear HP. assert (HD : forall x, In x (driven rs) -> x <> []).
    { intros x Hx. apply filter_In in Hx. destruct Hx as [_ Hx]. now intros ->. }
    revert HD. induction HF as [|a b l l' Hab HF IH]; intros HD; [easy|]. destruct Hr as [->|Hr]; [|apply IH; [exact Hr|]; intros x Hx; apply HD; now right].
    specialize (HD a (or_introl eq_refl)). destruct Hab as [->| ->]; [now destruct a|]. destruct (rev a) eqn:Er; [|reflexivity].
    exfalso. apply HD. rewrite <- (rev_involutive a), Er. reflexivity. }
  unfold driven. clear HF HP. induction ns as [|r ns IH]; [reflexivity|]. cbn [filter]. rewrite (H r (or_introl eq_refl)). f_equal. apply IH. intros x Hx. apply H. now right.
Qed.

(** ** The command lines of the heuristics *)
Lemma best_feasible N D Dc d C L eps minimize_K verbosity sols : Spec_all.problem N Dc d C L eps -> symmetric D -> D 0%nat 0%nat = 0 -> sols <> [] ->
  Forall (returned N Dc d C L eps) sols ->
  exists rs, read_and_solve_a_problem N D Dc minimize_K verbosity (map (fun s => Returns (Some s)) sols) =
      (if 0 <=? verbosity then Some (encode rs) else None, Answer (encode rs) (routes_cost D rs) (routes_cost Dc rs)) /\
    serves_all N Dc d C L eps rs /\ passes N Dc d C L eps (encode rs) /\
    forall s rs', In s sols -> s = encode rs' -> covers N rs' -> ~ better_solution minimize_K Dc rs' rs.
Proof.
  intros HP HS H0 Hne HR.
  assert (Hrss : exists rss, sols = map encode rss /\ Forall (serves_all N Dc d C L eps) rss).
  { clear Hne. induction HR as [|s sols R HR IH]; [exists []; split; [reflexivity|constructor]|]. destruct IH as (rss & -> & HF).
    destruct (returned_served _ _ _ _ _ _ _ HP R) as (rs & -> & Hrs). exists (rs :: rss). split; [reflexivity|now constructor]. }
  destruct Hrss as (rss & -> & HF). rewrite map_map.
  assert (Hcov : Forall (covers N) rss) by (eapply Forall_impl; [|exact HF]; intros a Ha; apply Ha).
  destruct HP as [P1 P2 P3 P4 P5 P6 P7 P8].
  destruct (best_of_runs N D Dc minimize_K P1 P3 P5 verbosity rss Hcov ltac:(now intros ->) HS H0) as (sol & HB & E & _).
  destruct HB as (l1 & rs & l2 & Ers & HW & HB1 & HB2). destruct HW as (ns & -> & Hsame & Hn).
  assert (Hrs : serves_all N Dc d C L eps rs) by (rewrite Forall_forall in HF; apply HF; rewrite Ers; apply in_elt).
  assert (HSns : serves_all N Dc d C L eps ns).
  { split; [|eapply same_routes_feasible; [exact P3|exact Hsame|]; apply driven_forall, Hrs]. unfold covers.
    rewrite <- (same_routes_concat _ _ Hsame), driven_concat. apply Hrs. }
  assert (Hnc : Forall customers_only ns) by (apply (P_savfam.covers_only N), HSns).
  exists ns. split; [|split; [exact HSns|split; [apply all_pass; [now split|exact HSns]|]]].
  - assert (EE : forall M, symmetric M -> M 0%nat 0%nat = 0 -> objf (encode ns) M = routes_cost M ns).
    { intros M _ M0. now rewrite objf_path, path_cost_encode. }
    rewrite E, (EE D HS H0), (EE Dc P3 P5). reflexivity.
  - intros s rs' Hs -> Hc'.
    assert (Hin : In rs' rss).
    { apply in_map_iff in Hs. destruct Hs as (rs2 & E2 & Hin). apply encode_inj in E2; [now subst rs2| |apply (P_savfam.covers_only N _ Hc')].
      apply (P_savfam.covers_only N). rewrite Forall_forall in Hcov. now apply Hcov. }
    assert (Ecost : routes_cost Dc ns = routes_cost Dc rs).
    { rewrite (same_routes_cost Dc _ _ P3 Hsame). unfold driven. now apply routes_cost_nonempty. }
    assert (Elen : length (driven ns) = length (driven rs)).
    { rewrite <- (same_routes_nonempty_len _ _ Hsame). f_equal. exact (same_nonempty _ _ Hsame). }
    unfold better_solution in *. rewrite Ecost, Elen. rewrite Ers in Hin. apply in_app_or in Hin. destruct Hin as [Hin|[<-|Hin]].
    + specialize (HB1 rs' Hin). unfold beats in *. destruct minimize_K; lia.
    + unfold beats. destruct minimize_K; lia.
    + exact (HB2 rs' Hin).
Qed.

