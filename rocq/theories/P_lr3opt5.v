(** * Proofs about lr3opt: the postoptimisation is idle; termination *)
From Coq Require Import ZifyBool ZifyNat.
From Verif Require Import Spec Spec_inter Spec_3optstar Spec_lr3opt PyBase M_util M_cvrp_ops M_psavings M_3optstar M_lr3opt M_lr3opt2 P_base P_util P_cvrp P_lr3opt P_3optstar7 P_lr3opt3 P_lr3opt4.

Lemma lam_nonneg_double l : 0 <= lam_or_zero l -> 0 <= lam_or_zero (double l).
Proof. destruct l as [x|]; cbn; lia. Qed.

(** ** A bound on the cost of a solution *)
Definition maxD (D : matrix) (l : list nat) : Z := sumZ (map (fun i => sumZ (map (D i) l)) l).
Lemma in_sum_le {A} (f : A -> Z) l x : (forall y, 0 <= f y) -> In x l -> f x <= sumZ (map f l).
Proof.
  intros Hf. induction l as [|y l IH]; intros H; [easy|]. cbn [map]. rewrite sumZ_cons. assert (Hn : 0 <= sumZ (map f l)).
  { clear - Hf. induction l as [|z l IH]; [cbn; lia|]. cbn [map]. rewrite sumZ_cons. pose proof (Hf z). lia. }
  destruct H as [->|H]; [lia|]. specialize (IH H). pose proof (Hf y). lia.
Qed.
Lemma sum_nonneg {A} (f : A -> Z) l : (forall y, 0 <= f y) -> 0 <= sumZ (map f l).
Proof. intros Hf. induction l as [|z l IH]; [cbn; lia|]. cbn [map]. rewrite sumZ_cons. pose proof (Hf z). lia. Qed.
Lemma maxD_le D l i j : nonneg_matrix D -> In i l -> In j l -> D i j <= maxD D l.
Proof.
  intros HN Hi Hj. unfold maxD. transitivity (sumZ (map (D i) l)).
  - apply (in_sum_le (D i)); [intros; apply HN|exact Hj].
  - apply (in_sum_le (fun i => sumZ (map (D i) l))); [|exact Hi]. intros y. apply sum_nonneg. intros; apply HN.
Qed.
Lemma maxD_nonneg D l : nonneg_matrix D -> 0 <= maxD D l.
Proof. intros HN. apply sum_nonneg. intros. apply sum_nonneg. intros. apply HN. Qed.
Lemma path_le D l q : nonneg_matrix D -> incl q l -> path_cost D q <= Z.of_nat (length q) * maxD D l.
Proof.
  intros HN. pose proof (maxD_nonneg D l HN) as H0. induction q as [|x [|y q] IH]; intros Hi; [cbn; lia|cbn [path_cost length]; nia|].
  rewrite path_cost_cons2. pose proof (maxD_le D l x y HN (Hi x (or_introl eq_refl)) (Hi y (or_intror (or_introl eq_refl)))).
  assert (IH' : path_cost D (y :: q) <= Z.of_nat (length (y :: q)) * maxD D l) by (apply IH; intros z Hz; apply Hi; now right).
  change (length (x :: y :: q)) with (S (length (y :: q))). nia.
Qed.
Definition cost_bound (D : matrix) (cs : list nat) : Z := 3 * Z.of_nat (length cs) * maxD D (0%nat :: cs).
Lemma cost_le D cs rs : nonneg_matrix D -> D 0%nat 0%nat = 0 -> Permutation (concat rs) cs -> routes_cost D rs <= cost_bound D cs.
Proof.
  intros HN H0 HP. assert (HI : incl (concat rs) cs) by (intros x Hx; eapply Permutation_in; eassumption).
  unfold cost_bound. rewrite <- (Permutation_length HP). clear HP. revert HI. pose proof (maxD_nonneg D (0%nat :: cs) HN) as Hm. induction rs as [|r rs IH]; intros HI; [cbn; lia|].
  rewrite P_3optstar5.routes_cost_cons. cbn [concat] in *. rewrite app_length.
  assert (IH' := IH ltac:(intros x Hx; apply HI, in_or_app; now right)).
  assert (Hr : route_cost D r <= 3 * Z.of_nat (length r) * maxD D (0%nat :: cs)).
  { destruct r as [|x r]; [unfold route_cost; cbn; lia|]. unfold route_cost. rewrite path_le with (l := 0%nat :: cs) by (exact HN || (intros z Hz; cbn in Hz; destruct Hz as [<-|[<-|Hz]]; [now left| |]; [right; apply HI; now left|apply in_app_or in Hz; destruct Hz as [Hz|[<-|[]]]; [right; apply HI; right; apply in_or_app; now left|now left]])).
    cbn [length app]. rewrite app_length. cbn [length]. nia. }
  nia.
Qed.

Section End.
  Variables (ceps seps : Z) (D : matrix) (d : demands) (C L : limit) (K : Z) (inf : Z -> bool) (max_incs : option nat) (cs : list nat).
  Hypothesis HsE : 0 <= seps.
  Hypothesis HcE : 0 <= ceps.
  Hypothesis HK : 0 < K.
  Hypothesis HD : symmetric D.
  Hypothesis DN : nonneg_matrix D.
  Hypothesis D0 : D 0%nat 0%nat = 0.
  Hypothesis dN : forall n, 0 <= d n.
  Hypothesis zero_within : within C ceps 0 /\ within L seps 0.
  Notation feas := (feasible D d C L ceps seps).
  Notation step := (fun po => lr_step ceps seps D d C L K inf po max_incs).
  Notation rep := (fun sol => force_feasible ceps seps sol D d C L).
  Notation inv := (lr_inv ceps seps D d C L cs).

  (** ** The postoptimisation finds nothing *)
  Lemma step_idle s : inv s -> lam_ok s -> lr_post s = false ->
    match step false s with
    | inl s' => step true s = inl s' /\ lr_post s' = false
    | inr r => step true s = inr r \/ exists s', step true s = inl s' /\ step true s' = inr r
    end.
  Proof using HsE HcE HK HD DN D0 dN zero_within.
    intros (rs & Es & Hc & HP & _) (H1 & H2) Ep. unfold lr_step. rewrite !Es, Ep.
    destruct (negb _); [now split|].
    match goal with |- context [do_3optstar_with ?c _ _ _ _ _] => destruct (do_3optstar_with c (encode rs) D d true None) as [[new dl]|] eqn:Em end.
    - pose proof (never_same ceps seps D d C L K HsE HcE HD DN D0 dN zero_within _ _ HK H1 H2 rs new dl Hc Em) as Hns. destruct (list_eq_dec _ _ _); [contradiction|]. now split.
    - destruct (check_CL_constraints ceps seps (encode rs) D d C L) eqn:Ech.
      + apply (check_encode ceps seps D d C L DN dN rs Hc (proj1 zero_within)) in Ech.
        right. eexists. split; [reflexivity|]. cbn [lr_post lr_sol].
        rewrite (none_post_none ceps seps D d C L K HsE HcE HD DN D0 dN zero_within _ _ HK H1 H2 rs Hc Ech Em). reflexivity.
      + match goal with |- context [if ?b then inr _ else _] => destruct b end; [now left|now split].
  Qed.
  Lemma loop_idle fuel : forall s r, inv s -> lam_ok s -> lr_post s = false ->
    lr_loop (step false) rep fuel None s = Some (LrReturn r) -> lr_loop (step true) rep (S fuel) None s = Some (LrReturn r).
  Proof using HsE HcE HK HD DN D0 dN zero_within.
    induction fuel as [|fuel IH]; intros s r Hi Hl Hp H; [discriminate|]. pose proof (step_idle s Hi Hl Hp) as Hs.
    pose proof (step_inv ceps seps D d C L K inf false max_incs cs HsE HD DN dN zero_within s Hi) as Hk.
    pose proof (step_lam ceps seps D d C L K inf false max_incs s) as Hlam.
    cbn [lr_loop] in H. remember (S fuel) as f1 eqn:Ef. cbn [lr_loop]. cbn beta in *. destruct (lr_step ceps seps D d C L K inf false max_incs s) as [s'|r'].
    - destruct Hs as (-> & Hp'). apply IH; auto.
    - injection H as <-. destruct Hs as [->|(s' & -> & Hs')]; [reflexivity|]. rewrite Ef. cbn [lr_loop]. now rewrite Hs'.
  Qed.

  (** ** Termination *)
  Variable po : bool.
  Definition ends (s : lr_state) : Prop := exists fuel0 r, forall fuel, (fuel0 <= fuel)%nat -> lr_loop (step po) rep fuel None s = Some (LrReturn r).
  Lemma ends_ret s r : step po s = inr r -> ends s.
  Proof using All. intros H. exists 1%nat, r. intros [|fuel] Hf; [lia|]. cbn [lr_loop]. cbn beta in H. now rewrite H. Qed.
  Lemma ends_step s s' : step po s = inl s' -> ends s' -> ends s.
  Proof using All. intros H (f0 & r & Hr). exists (S f0), r. intros [|fuel] Hf; [lia|]. cbn [lr_loop option_map]. cbn beta in H. rewrite H. apply Hr. lia. Qed.

  Notation rlx lC lL := (relaxed K lC lL D d C L ceps seps).
  Definition flag (sol : list nat) : nat := if ends_with_empty sol then 0%nat else 1%nat.
  Lemma flag_snoc sol : sol <> [] -> last sol 1%nat = 0%nat -> ends_with_empty (sol ++ [0%nat]) = true.
  Proof using.
    clear. intros Hn Hl. destruct sol as [|x l] using rev_ind; [easy|]. rewrite last_last in Hl. subst x. unfold ends_with_empty. rewrite rev_app_distr, rev_app_distr. reflexivity.
  Qed.
  Lemma encode_last rs : encode rs <> [] /\ last (encode rs) 1%nat = 0%nat.
  Proof using. clear. destruct (P_3optstar2.encode_snoc0 rs) as (q & ->). split; [now destruct q|apply last_last]. Qed.

  (** What a step does, for routes [rs] outside of the postoptimisation. *)
  Lemma step_cases s rs : lr_sol s = encode rs -> Forall customers_only rs -> Permutation (concat rs) cs -> lam_ok s -> lr_post s = false ->
    (exists r, step po s = inr r) \/
    (ends_with_empty (encode rs) = false /\ step po s = inl (mklr (encode (rs ++ [[]])) (lr_lC s) (lr_lL s) (lr_incs s) false)) \/
    (exists rs', step po s = inl (mklr (encode rs') (lr_lC s) (lr_lL s) 0 false) /\ Forall customers_only rs' /\ Permutation (concat rs') cs /\
       rlx (lam_or_zero (lr_lC s)) (lam_or_zero (lr_lL s)) rs' < rlx (lam_or_zero (lr_lC s)) (lam_or_zero (lr_lL s)) rs) \/
    (ends_with_empty (encode rs) = true /\ step po s = inl (mklr (encode rs) (double (lr_lC s)) (double (lr_lL s)) (S (lr_incs s)) false) /\
       at_inf inf (double (lr_lC s)) = false /\ match max_incs with Some m => (S (lr_incs s) <= m)%nat | None => True end) \/
    (ends_with_empty (encode rs) = true /\ Forall feas rs /\ step po s = inl (mklr (encode rs) (lr_lC s) (lr_lL s) (lr_incs s) true)).
  Proof using All.
    intros Es Hc HP (H1 & H2) Ep. unfold lr_step. rewrite !Es, Ep. rewrite encode_snoc.
    destruct (ends_with_empty (encode rs)) eqn:Ee; cbn [negb]; [|right; left; now split].
    match goal with |- context [do_3optstar_with ?c _ _ _ _ _] => destruct (do_3optstar_with c (encode rs) D d true None) as [[new dl]|] eqn:Em end.
    - pose proof (never_same ceps seps D d C L K HsE HcE HD DN D0 dN zero_within _ _ HK H1 H2 rs new dl Hc Em) as Hns. destruct (list_eq_dec _ _ _); [contradiction|].
      right. right. left. destruct (move_lowers ceps seps D d C L K HsE HcE HD DN D0 dN zero_within _ _ HK H1 H2 rs new dl Hc Em) as (rs' & -> & W & P & Hlt).
      exists rs'. split; [reflexivity|]. split; [exact W|]. split; [now rewrite P|exact Hlt].
    - destruct (check_CL_constraints ceps seps (encode rs) D d C L) eqn:Ech.
      + apply (check_encode ceps seps D d C L DN dN rs Hc (proj1 zero_within)) in Ech.
        destruct po; [|left; eauto]. right. right. right. right. now split.
      + match goal with |- context [if ?b then inr _ else _] => destruct b eqn:Eb end; [left; eauto|].
        right. right. right. left. split; [reflexivity|]. split; [reflexivity|]. apply orb_false_iff in Eb. destruct Eb as (Eb1 & Eb2). apply orb_false_iff in Eb1. destruct Eb1 as (Eb1 & _).
        split; [exact Eb1|]. destruct max_incs as [m|]; [|exact I]. lia.
  Qed.

  Lemma ends_post n : forall rs s, (Z.to_nat (routes_cost D rs) <= n)%nat -> lr_sol s = encode rs -> Forall customers_only rs -> Forall feas rs -> lr_post s = true -> ends s.
  Proof using All.
    induction n as [n IH] using lt_wf_ind. intros rs s Hn Es Hc HF Hp.
    destruct (do_3optstar_move ceps seps (encode rs) D d C L true None) as [[opt dl]|] eqn:Em.
    - destruct (sound _ _ _ _ _ _ _ _ _ Hc HsE _ _ Em) as (rs' & Rg & E & W & P & Hlt & _ & _ & _ & Hcost & Hf). specialize (Hcost HD D0). specialize (Hf HD HF).
      apply (ends_step s (mklr opt (lr_lC s) (lr_lL s) (lr_incs s) true)); [unfold lr_step; now rewrite Hp, Es, Em|].
      assert (0 <= routes_cost D rs') by (apply sum_nonneg; intros; apply P_3optstar5.path_nn, DN).
      apply (IH (Z.to_nat (routes_cost D rs'))) with (rs := rs'); [lia|lia|exact E|exact W|exact Hf|reflexivity].
    - eapply ends_ret. unfold lr_step. rewrite Hp, Es, Em. reflexivity.
  Qed.
  Lemma relaxed_nonneg lC lL rs : 0 <= lC -> 0 <= lL -> 0 <= rlx lC lL rs.
  Proof using All.
    intros H1 H2. unfold relaxed. assert (0 <= routes_cost D rs) by (apply sum_nonneg; intros; apply P_3optstar5.path_nn, DN).
    assert (0 <= sumZ (map (fun r => excess C ceps (demand d r)) rs)) by (apply sum_nonneg; intros; now apply excess_nonneg).
    assert (0 <= sumZ (map (fun r => excess L seps (route_cost D r)) rs)) by (apply sum_nonneg; intros; now apply excess_nonneg). nia.
  Qed.
  Definition good_state (s : lr_state) (rs : list (list nat)) : Prop :=
    lr_sol s = encode rs /\ Forall customers_only rs /\ Permutation (concat rs) cs /\ lam_ok s /\ lr_post s = false.
  Lemma ends_level lC lL :
    (forall s rs, good_state s rs -> lr_lC s = double lC -> lr_lL s = double lL -> at_inf inf (double lC) = false -> ends s) ->
    forall n rs s, (Z.to_nat (rlx (lam_or_zero lC) (lam_or_zero lL) rs) * 2 + flag (encode rs) <= n)%nat ->
      lr_lC s = lC -> lr_lL s = lL -> good_state s rs -> ends s.
  Proof using All.
    intros Hnext. induction n as [n IH] using lt_wf_ind. intros rs s Hn EC EL (Es & Hc & HP & Hl & Hp).
    pose proof Hl as (Hl1 & Hl2). rewrite EC in Hl1. rewrite EL in Hl2.
    destruct (step_cases s rs Es Hc HP Hl Hp) as [(r & Hr)|[(He & Hr)|[(rs' & Hr & W & P' & Hlt)|[(He & Hr & Hi & _)|(He & HF & Hr)]]]].
    - now apply (ends_ret s r).
    - eapply ends_step; [exact Hr|].
      assert (Er : rlx (lam_or_zero lC) (lam_or_zero lL) (rs ++ [[]]) = rlx (lam_or_zero lC) (lam_or_zero lL) rs).
      { destruct zero_within as (HC0 & HL0).
        rewrite <- (relaxed_filter ceps seps D d C L K _ _ HC0 HL0 D0 (rs ++ [[]])), <- (relaxed_filter ceps seps D d C L K _ _ HC0 HL0 D0 rs). now rewrite filter_app, app_nil_r. }
      apply (IH (Z.to_nat (rlx (lam_or_zero lC) (lam_or_zero lL) rs) * 2)%nat) with (rs := rs ++ [[]]).
      + unfold flag in Hn. rewrite He in Hn. lia.
      + rewrite Er. unfold flag. rewrite encode_snoc, flag_snoc by apply encode_last. lia.
      + exact EC.
      + exact EL.
      + split; [reflexivity|]. split; [apply Forall_app; split; [exact Hc|repeat constructor]|]. split; [rewrite concat_app; cbn; now rewrite app_nil_r|]. now split.
    - eapply ends_step; [exact Hr|]. rewrite EC, EL in Hlt.
      pose proof (relaxed_nonneg _ _ rs' Hl1 Hl2) as Hnn.
      apply (IH (Z.to_nat (rlx (lam_or_zero lC) (lam_or_zero lL) rs') * 2 + 1)%nat) with (rs := rs').
      + lia.
      + unfold flag. destruct (ends_with_empty _); lia.
      + exact EC.
      + exact EL.
      + split; [reflexivity|]. split; [exact W|]. split; [exact P'|]. now split.
    - eapply ends_step; [exact Hr|]. rewrite EC in Hi. eapply Hnext with (rs := rs); cbn [lr_lC lr_lL].
      + split; [reflexivity|]. split; [exact Hc|]. split; [exact HP|]. split; [|reflexivity]. rewrite EC, EL. split; cbn [lr_lC lr_lL]; now apply lam_nonneg_double.
      + now rewrite EC.
      + now rewrite EL.
      + exact Hi.
    - eapply ends_step; [exact Hr|]. eapply ends_post with (rs := rs); [reflexivity|reflexivity|exact Hc|exact HF|reflexivity].
  Qed.

  (** With a multiplier for the capacity that reaches infinity. *)
  Lemma ends_inf M : (forall y, M <= y -> inf y = true) -> forall n x rs s, (Z.to_nat (M - x) <= n)%nat -> 0 < x -> lr_lC s = Some x -> good_state s rs -> ends s.
  Proof using All.
    intros HM. induction n as [n IH] using lt_wf_ind. intros x rs s Hn Hx EC Hg.
    refine (ends_level (Some x) (lr_lL s) _ _ rs s (le_n _) EC eq_refl Hg).
    intros s' rs' Hg' EC' EL' Hi. cbn [double option_map] in EC', Hi. cbn [at_inf] in Hi.
    assert (Hlt : x * 2 < M) by (destruct (Z.ltb_spec (x * 2) M) as [G|G]; [exact G|rewrite (HM _ G) in Hi; discriminate]).
    apply (IH (Z.to_nat (M - x * 2))) with (x := x * 2) (rs := rs'); [lia|lia|lia|exact EC'|exact Hg'].
  Qed.

  (** With a bound on the number of consecutive doublings. *)
  Section Doublings.
  Variables (k : nat) (c0 l0 : Z).
  Hypothesis Hk : max_incs = Some k.
  Hypothesis Hc0 : 0 <= c0.
  Hypothesis Hl0 : 0 <= l0.
  Definition level (m : Z) (s : lr_state) : Prop := lam_or_zero (lr_lC s) = m * c0 /\ lam_or_zero (lr_lL s) = m * l0.
  Definition viol (rs : list (list nat)) : Z :=
    c0 * sumZ (map (fun r => excess C ceps (demand d r)) rs) + l0 * sumZ (map (fun r => excess L seps (route_cost D r)) rs).
  Lemma rlx_level m rs : rlx (m * c0) (m * l0) rs = K * routes_cost D rs + m * viol rs.
  Proof using. clear. unfold relaxed, viol. ring. Qed.
  Lemma viol_nonneg rs : 0 <= viol rs.
  Proof using All.
    unfold viol. assert (0 <= sumZ (map (fun r => excess C ceps (demand d r)) rs)) by (apply sum_nonneg; intros; now apply excess_nonneg).
    assert (0 <= sumZ (map (fun r => excess L seps (route_cost D r)) rs)) by (apply sum_nonneg; intros; now apply excess_nonneg). nia.
  Qed.
  Lemma level_double m s s' : level m s -> lr_lC s' = double (lr_lC s) -> lr_lL s' = double (lr_lL s) -> level (m * 2) s'.
  Proof using.
    clear. intros (H1 & H2) E1 E2. unfold level. rewrite E1, E2. destruct (lr_lC s), (lr_lL s); cbn in *; lia.
  Qed.
  Definition CB := cost_bound D cs.
  Definition mu (rs : list (list nat)) (incs : nat) : Z :=
    ((viol rs * (CB + 1) + routes_cost D rs) * (Z.of_nat k + 1) + Z.of_nat (k - incs)) * 2 + Z.of_nat (flag (encode rs)).
  Lemma cost_range rs : Permutation (concat rs) cs -> 0 <= routes_cost D rs <= CB.
  Proof using All. intros HP. split; [apply sum_nonneg; intros; apply P_3optstar5.path_nn, DN|now apply cost_le]. Qed.
  Lemma lower_lex m V V' a a' B : K * B < m -> 0 <= a <= B -> 0 <= a' <= B -> 0 <= V -> 0 <= V' -> K * a' + m * V' < K * a + m * V -> V' * (B + 1) + a' < V * (B + 1) + a.
  Proof using HK.
    clear - HK. intros Hm Ha Ha' HV HV' Hlt. assert (H0 : 0 <= K * B) by nia. assert (HVV : V' <= V).
    { destruct (Z.le_gt_cases V' V) as [G|G]; [exact G|exfalso]. assert (m * V + m <= m * V') by nia. assert (K * a <= K * B) by nia. assert (0 <= K * a') by nia. lia. }
    destruct (Z.eq_dec V' V) as [->|Hne]; [nia|]. assert (V' * (B + 1) + (B + 1) <= V * (B + 1)) by nia. lia.
  Qed.
  Lemma ends_high n : forall m rs s, (Z.to_nat (mu rs (lr_incs s)) <= n)%nat -> K * CB < m -> level m s -> good_state s rs -> ends s.
  Proof using All.
    induction n as [n IH] using lt_wf_ind. intros m rs s Hn Hm Hlev (Es & Hc & HP & Hl & Hp).
    pose proof (cost_range rs HP) as Hcr. pose proof (viol_nonneg rs) as Hv.
    destruct (step_cases s rs Es Hc HP Hl Hp) as [(r & Hr)|[(He & Hr)|[(rs' & Hr & W & P' & Hlt)|[(He & Hr & Hi & Hmi)|(He & HF & Hr)]]]].
    - now apply (ends_ret s r).
    - eapply ends_step; [exact Hr|].
      assert (Emu : 0 <= mu (rs ++ [[]]) (lr_incs s) < mu rs (lr_incs s)).
      { unfold mu. assert (Ev : viol (rs ++ [[]]) = viol rs).
        { destruct zero_within as (HC0 & HL0). apply within_excess in HC0, HL0; try assumption.
          unfold viol. rewrite !map_app, !sumZ_app. cbn [map sumZ fold_right]. replace (route_cost D []) with 0 by (unfold route_cost; cbn; lia). change (demand d []) with 0. rewrite HC0, HL0. lia. }
        assert (Ec : routes_cost D (rs ++ [[]]) = routes_cost D rs).
        { rewrite P_3optstar5.routes_cost_app. unfold routes_cost at 2. cbn [map sumZ fold_right]. replace (route_cost D []) with 0 by (unfold route_cost; cbn; lia). lia. }
        rewrite Ev, Ec. unfold flag. rewrite He, encode_snoc, flag_snoc by apply encode_last.
        assert (0 <= viol rs * (CB + 1)) by (apply Z.mul_nonneg_nonneg; lia). split; [|lia]. 
        assert (0 <= (viol rs * (CB + 1) + routes_cost D rs) * (Z.of_nat k + 1)) by (apply Z.mul_nonneg_nonneg; lia). lia. }
      apply (IH (Z.to_nat (mu (rs ++ [[]]) (lr_incs s)))) with (m := m) (rs := rs ++ [[]]); [lia|reflexivity|exact Hm|exact Hlev|].
      split; [reflexivity|]. split; [apply Forall_app; split; [exact Hc|repeat constructor]|]. split; [rewrite concat_app; cbn; now rewrite app_nil_r|]. now split.
    - eapply ends_step; [exact Hr|]. pose proof (cost_range rs' P') as Hcr'. pose proof (viol_nonneg rs') as Hv'.
      destruct Hlev as (E1 & E2). rewrite E1, E2, !rlx_level in Hlt.
      pose proof (lower_lex m (viol rs) (viol rs') (routes_cost D rs) (routes_cost D rs') CB Hm Hcr Hcr' Hv Hv' Hlt) as Hlex.
      assert (H0 : 0 <= viol rs' * (CB + 1)) by (apply Z.mul_nonneg_nonneg; lia).
      assert (Hx : 0 <= viol rs' * (CB + 1) + routes_cost D rs') by lia.
      assert (Emu : 0 <= mu rs' 0 < mu rs (lr_incs s)).
      { unfold mu, flag. revert Hlex Hx. generalize (viol rs' * (CB + 1) + routes_cost D rs'), (viol rs * (CB + 1) + routes_cost D rs). intros x y Hlex Hx. assert ((x + 1) * (Z.of_nat k + 1) <= y * (Z.of_nat k + 1)) by (apply Z.mul_le_mono_nonneg_r; lia).
        assert (0 <= x * (Z.of_nat k + 1)) by (apply Z.mul_nonneg_nonneg; lia).
        destruct (ends_with_empty (encode rs)), (ends_with_empty (encode rs')); lia. }
      apply (IH (Z.to_nat (mu rs' 0))) with (m := m) (rs := rs'); [lia|reflexivity|exact Hm|now split|].
      split; [reflexivity|]. split; [exact W|]. split; [exact P'|]. now split.
    - eapply ends_step; [exact Hr|]. rewrite Hk in Hmi.
      assert (H0 : 0 <= viol rs * (CB + 1)) by (apply Z.mul_nonneg_nonneg; lia).
      assert (H1 : 0 <= (viol rs * (CB + 1) + routes_cost D rs) * (Z.of_nat k + 1)) by (apply Z.mul_nonneg_nonneg; lia).
      apply (IH (Z.to_nat (mu rs (S (lr_incs s))))) with (m := m * 2) (rs := rs).
      + unfold mu in *. lia.
      + reflexivity.
      + assert (0 <= K * CB) by (apply Z.mul_nonneg_nonneg; lia). lia.
      + eapply level_double; [exact Hlev|reflexivity|reflexivity].
      + split; [reflexivity|]. split; [exact Hc|]. split; [exact HP|]. split; [|reflexivity]. destruct Hl as (Hl1 & Hl2). split; cbn [lr_lC lr_lL]; now apply lam_nonneg_double.
    - eapply ends_step; [exact Hr|]. eapply ends_post with (rs := rs); [reflexivity|reflexivity|exact Hc|exact HF|reflexivity].
  Qed.
  Lemma ends_low n : forall m rs s, (Z.to_nat (K * CB + 1 - m) <= n)%nat -> 1 <= m -> level m s -> good_state s rs -> ends s.
  Proof using All.
    induction n as [n IH] using lt_wf_ind. intros m rs s Hn Hm Hlev Hg.
    destruct (Z.ltb_spec (K * CB) m) as [Hh|Hlo]; [now apply (ends_high _ m rs s (le_n _))|].
    refine (ends_level (lr_lC s) (lr_lL s) _ _ rs s (le_n _) eq_refl eq_refl Hg).
    intros s' rs' Hg' EC' EL' _. apply (IH (Z.to_nat (K * CB + 1 - m * 2))) with (m := m * 2) (rs := rs'); [lia|reflexivity|lia| |exact Hg'].
    eapply level_double; eassumption.
  Qed.
  End Doublings.
  Lemma ends_max k rs s : max_incs = Some k -> good_state s rs -> ends s.
  Proof using All.
    intros Hk Hg. pose proof Hg as (_ & _ & _ & (H1 & H2) & _).
    refine (ends_low k (lam_or_zero (lr_lC s)) (lam_or_zero (lr_lL s)) Hk H1 H2 _ 1 rs s (le_n _) _ _ Hg); [lia|]. split; lia.
  Qed.
End End.

(** ** Without a multiplier for the capacity *)
Section Forever.
  Variables (ceps seps : Z) (D : matrix) (d : demands) (C L : limit) (K : Z) (inf : Z -> bool) (po : bool) (cs : list nat).
  Hypothesis HsE : 0 <= seps.
  Hypothesis HD : symmetric D.
  Hypothesis DN : nonneg_matrix D.
  Hypothesis dN : forall n, 0 <= d n.
  Hypothesis zero_within : within C ceps 0 /\ within L seps 0.
  Hypothesis Hnone : forall rs, Forall customers_only rs -> Permutation (concat rs) cs -> ~ Forall (feasible D d C L ceps seps) rs.
  Lemma loop_forever fuel : forall s, lr_inv ceps seps D d C L cs s -> lr_lC s = None -> lr_post s = false ->
    lr_loop (lr_step ceps seps D d C L K inf po None) (fun sol => force_feasible ceps seps sol D d C L) fuel None s = None.
  Proof using All.
    induction fuel as [|fuel IH]; intros s Hi HC Hp; [reflexivity|]. cbn [lr_loop option_map].
    pose proof (step_inv ceps seps D d C L K inf po None cs HsE HD DN dN zero_within s Hi) as Hk.
    assert (Hs : match lr_step ceps seps D d C L K inf po None s with inl s' => lr_lC s' = None /\ lr_post s' = false | inr _ => False end).
    { destruct Hi as (rs & Es & Hc & HP & _). unfold lr_step. rewrite !Es, Hp.
      destruct (check_CL_constraints ceps seps (encode rs) D d C L) eqn:Ech.
      - apply (check_encode ceps seps D d C L DN dN rs Hc (proj1 zero_within)) in Ech. exfalso. exact (Hnone rs Hc HP Ech).
      - destruct (negb _); [now split|]. rewrite HC. cbn [double option_map at_inf orb].
        destruct (do_3optstar_with _ _ _ _ _ _) as [[new dl]|]; [destruct (list_eq_dec _ _ _); [|now split]|]; (destruct (lr_lL s); now split). }
    destruct (lr_step ceps seps D d C L K inf po None s) as [s'|r]; [|easy]. apply IH; [exact Hk|apply Hs|apply Hs].
  Qed.
End Forever.
