(** * Solutions that serve everyone pass the validation *)
From Verif Require Import Spec Spec_inter Spec_savings Spec_petal Spec_gap PyBase M_util M_cvrp_ops P_base P_cvrp
  T_psavings T_ssavings T_savfam T_cli T_nn T_cins T_mj T_sweep T_gm T_wh T_rfcs T_lr3opt2 T_tyagi T_mbsa T_petal T_cmt T_gap T_pnn Spec_all.
From Coq Require Import ZifyBool ZifyNat Lia Arith List Permutation.
Import ListNotations.
Local Open Scope Z_scope.

Lemma all_pass N D d C L eps rs : problem N D d C L eps -> serves_all N D d C L eps rs -> passes N D d C L eps (encode rs).
Proof.
  intros [HN He HS HD H0 Hd Hd0 HA] (HC & HF).
  assert (Hin : forall x, In x (concat rs) -> (1 <= x < N)%nat).
  { intros x Hx. apply (Permutation_in _ HC) in Hx. apply in_seq in Hx. lia. }
  assert (Hcust : Forall customers_only rs).
  { apply Forall_forall. intros r Hr. apply Forall_forall. intros x Hx. assert (X : In x (concat rs)) by (apply in_concat; exists r; auto). apply Hin in X. lia. }
  assert (Hlt : Forall (fun n => (n < N)%nat) (encode rs)).
  { apply Forall_forall. intros x Hx. destruct (Nat.eq_dec x 0) as [->|Hx0]; [lia|]. apply Hin. rewrite <- (customers_encode rs Hcust). apply filter_In. split; [exact Hx|]. apply Bool.negb_true_iff, Nat.eqb_neq. exact Hx0. }
  destruct (validate_encode N D d C L eps rs ltac:(lia) Hd0 Hcust Hlt) as (b1 & b2 & b3 & E & E1 & E2 & E3).
  destruct (HA 1%nat ltac:(lia)) as (A1 & A2).
  assert (W : forall lim x y, within lim eps y -> x <= y -> within lim eps x) by (intros [c|] x y; cbn; lia).
  unfold passes. rewrite E. f_equal. f_equal; [f_equal|].
  - apply E1, HC.
  - apply E2. apply Forall_app. split; [eapply Forall_impl; [|exact HF]; intros r (X & _); exact X|]. constructor; [|constructor].
    eapply W; [exact A1|]. cbn. specialize (Hd 1%nat). lia.
  - apply E3. apply Forall_app. split; [eapply Forall_impl; [|exact HF]; intros r (_ & X); exact X|]. constructor; [|constructor].
    eapply W; [exact A2|]. cbn. pose proof (HD 0%nat 1%nat). pose proof (HD 1%nat 0%nat). lia.
Qed.
Lemma serves_pass N D d C L eps rs : problem N D d C L eps -> serves N D d C L eps eps rs -> passes N D d C L eps (encode rs).
Proof. intros P (A & _ & B). apply all_pass; [exact P|]. split; assumption. Qed.

Lemma ends_same {A} (call : nat -> option A) a b : ends_with call a -> ends_with call b -> a = b.
Proof. intros (n & H) (k & H'). specialize (H (n + k)%nat ltac:(lia)). specialize (H' (n + k)%nat ltac:(lia)). congruence. Qed.

Lemma returned_served N D d C L eps sol : problem N D d C L eps -> returned N D d C L eps sol ->
  exists rs, sol = encode rs /\ serves_all N D d C L eps rs.
Proof.
  intros [HN He HS HD H0 Hd Hd0 HA] R.
  assert (Hd' : forall i, (1 <= i < N)%nat -> 0 <= d i) by auto.
  assert (SA : forall rs, serves N D d C L eps eps rs -> serves_all N D d C L eps rs) by (intros rs (A & _ & B); split; assumption).
  inversion R; subst; clear R;
  repeat match goal with H : exists x, _ |- _ => destruct H end.
  - destruct (C39_parallel eps eps N D d C L minimize_K savings) as (rs & E & S); try assumption. exists rs. split; [congruence|auto].
  - destruct (C27_sequential_savings eps eps D d C L minimize_K cb HS N seeds) as (rs & E & S1 & S2 & S3 & _); try assumption. exists rs. split; [congruence|split; assumption].
  - destruct (C39_gaskell eps eps N D d C L minimize_K m) as (rs & E & S & _); try assumption. exists rs. split; [congruence|auto].
  - destruct (C39_paessens eps eps N D d C L minimize_K s do_3opt) as (rs & n & E & S & _); try assumption. exists rs. split; [|auto].
    assert (X : Some sol = Some (encode rs)) by (eapply ends_same; [eassumption|exists n; exact E]). congruence.
  - destruct (C39_suppression eps eps N D d C L minimize_K Lprime) as (rs & E & S & _); try assumption. exists rs. split; [congruence|auto].
  - destruct (C73_result eps eps N D d C L minimize_K) as (rs0 & rs & n & _ & E & S1 & S2 & S3 & _); try assumption. exists rs. split; [|split; assumption].
    assert (X : Some sol = Some (encode rs)) by (eapply ends_same; [eassumption|exists n; exact E]). congruence.
  - destruct (C29_complete_and_feasible_partial eps eps N D d C L K m ends_only) as (rs & p & n & S & E); try assumption. exists rs. split; [|auto].
    assert (X : (M_nn.NNok (Some sol), pts) = (M_nn.NNok (Some (encode rs)), p)) by (eapply ends_same; [eassumption|exists n; exact E]). congruence.
  - match goal with H : ends_with _ _ |- _ => rename H into Hcall end. destruct minimize_K.
    { destruct Hcall as (n & E). specialize (E n (le_n n)). discriminate. }
    destruct single.
    + destruct (C108_single_run eps eps N D d C L ltac:(assumption) ltac:(assumption) ltac:(assumption) false (fun _ => None) eq_refl) as (rs & _ & S & E & _). exists rs. split; [|auto].
      assert (X : M_pnn.WReturns (Some sol) = M_pnn.WReturns (Some (encode rs))) by (eapply ends_same; [eassumption|exact E]). congruence.
    + destruct (C108_best_of_all_tries eps eps N D d C L) as (rs1 & _ & _ & b & rs & _ & _ & S & E & _); try assumption. exists rs. split; [|auto].
      assert (X : M_pnn.WReturns (Some sol) = M_pnn.WReturns (Some (encode rs))) by (eapply ends_same; [eassumption|exact E]). congruence.
  - match goal with H : ends_with _ _ |- _ => destruct H as (n & E) end.
    destruct (C30_served_within_limits_partial eps eps N D d C L minimize_K K m strain ident (n + N)) as (rs & p & E' & S & _); try assumption; [lia|]. exists rs. split; [|auto].
    rewrite E in E' by lia. congruence.
  - match goal with H : ends_with _ _ |- _ => destruct H as (n & E) end.
    destruct (C30_parallel_with_automatic_number_of_routes eps eps N D d C L minimize_K Hd0 ident ident' (n + N)) as (rs & E' & S1 & S2 & S3); [lia|]. exists rs.
    rewrite E in E' by lia. split; [congruence|]. split; [exact S1|apply S3; exact HA].
  - match goal with H : ends_with _ _ |- _ => destruct H as (n & E) end.
    destruct (C52_serves_optimised_and_best eps N D d C L minimize_K) as (k & E'); try assumption.
    destruct (E' (n + k)%nat ltac:(lia) ident c) as (rs & E2 & S & _). exists rs. rewrite E in E2 by lia. split; [congruence|auto].
  - destruct (C31_sweep eps eps N D d C L f order ltac:(assumption) HA ltac:(assumption) Hd' minimize_K rho dir s HN) as (n & rs & E & S & _); [assumption|]. exists rs. split; [|auto].
    assert (X : M_sweep.SwReturns (Some sol) = M_sweep.SwReturns (Some (encode rs))) by (eapply ends_same; [eassumption|exists n; exact E]). congruence.
  - match goal with H : M_gm.gillet_miller_init _ _ _ _ _ _ _ _ _ _ _ _ _ _ _ = _ |- _ =>
      eapply (C62_result eps eps N D d C L tsp order score) in H; try eassumption; destruct H as (rs & E & S & _) end. exists rs. split; [congruence|auto].
  - match goal with H : M_wh.wren_holliday_init _ _ _ _ _ _ _ _ _ _ _ _ _ _ = _ |- _ => eapply C82_result in H; try eassumption; destruct H as (? & ? & rs & E & S & _) end. exists rs. split; [congruence|auto].
  - match goal with H : ends_with _ _ |- _ => destruct H as (n & E) end.
    destruct (C40_result_partial N D d C L eps eps minimize_K gen f g tour gt len) with (fuel := (n + N)%nat) as (ss & rs & E' & S & _); try assumption; [lia|].
    exists rs. rewrite E in E' by lia. split; [congruence|auto].
  - match goal with H : M_lr3opt2.lr3opt_init _ _ _ _ _ _ _ _ _ _ _ _ _ _ _ = _ |- _ => eapply (C56_complete_and_feasible eps eps N) in H; try eassumption; destruct H as (rs & S & [E|E]) end; [|discriminate].
    exists rs. split; [congruence|auto].
  - destruct (C59_serves_everyone_partial eps eps N D d C L only_large try_all g f) as (rs & fi & n & _ & S & _ & E); try assumption; [tauto|]. exists rs. split; [|auto].
    assert (X : M_tyagi.TyReturn (Some sol) = M_tyagi.TyReturn (Some (encode rs))) by (eapply ends_same; [eassumption|exists n; exact E]). congruence.
  - match goal with H : M_mbsa.mbsa_init _ _ _ _ _ _ _ _ _ _ _ _ _ = _ |- _ => eapply C64_result in H; try eassumption; destruct H as (gs & rs & E & S & _) end. exists rs. split; [exact E|auto].
  - match goal with H : M_petal.petal_init _ _ _ _ _ _ _ _ _ _ _ _ _ _ _ _ _ _ _ _ = _ |- _ => eapply (C68_result eps gurobi feas_relax quicksum) in H; try eassumption; destruct H as (rs & E & S) end. exists rs. split; [congruence|exact S].
  - match goal with H : ends_with _ _ |- _ => destruct H as (n & E) end.
    destruct (C78_result eps eps N D d C L f minimize_K lam mu m most assoc order1 order2 shuffled argp retries) as (rs & i2 & k & E' & S & _); try assumption.
    specialize (E' (n + k)%nat ltac:(lia)). rewrite E in E' by lia. exists rs. split; [congruence|auto].
  - match goal with H : M_gap.gap_init _ _ _ _ _ _ _ _ _ _ _ _ _ _ _ _ _ = _ |- _ => eapply C86_result in H; [|eassumption|rewrite Hd0; lia|eassumption|eassumption|left; reflexivity]; destruct H as (rss & _ & F & B) end.
    destruct B as (rs & E & I & _). exists rs. split; [exact E|]. rewrite Forall_forall in F. auto.
Qed.
Lemma returned_passes N D d C L eps sol : problem N D d C L eps -> returned N D d C L eps sol -> passes N D d C L eps sol.
Proof. intros P R. destruct (returned_served _ _ _ _ _ _ _ P R) as (rs & -> & S). apply all_pass; assumption. Qed.
