(** * Proofs about lr3opt: what is returned or passed on *)
From Coq Require Import ZifyBool ZifyNat.
From Verif Require Import Spec Spec_inter Spec_3optstar Spec_lr3opt PyBase M_util M_cvrp_ops M_psavings M_3optstar M_lr3opt M_lr3opt2 P_base P_util P_cvrp P_lr3opt P_3optstar7 P_lr3opt3.

Lemma encode_snoc rs : encode (rs ++ [[]]) = encode rs ++ [0%nat].
Proof. rewrite P_3optstar.encode_app2. reflexivity. Qed.
Lemma feasible_nil D d C L ceps seps : within C ceps 0 -> within L seps 0 -> D 0%nat 0%nat = 0 -> feasible D d C L ceps seps [].
Proof. intros H1 H2 H0. split; [exact H1|]. replace (route_cost D []) with 0 by (unfold route_cost; cbn; lia). exact H2. Qed.
Lemma same_routes_feasible D d C L ceps seps a b : symmetric D -> same_routes a b -> Forall (feasible D d C L ceps seps) a -> Forall (feasible D d C L ceps seps) b.
Proof.
  intros HD (m & H1 & H2) HF. assert (HF2 : Forall (feasible D d C L ceps seps) m).
  { clear H2. induction H1 as [|x y l l' Hx H1 IH]; [constructor|]. inversion HF; subst. constructor; [|auto]. destruct Hx as [->| ->]; [assumption|]. now apply P_3optstar5.feas_rev. }
  rewrite Forall_forall in *. intros x Hx. apply HF2. eapply Permutation_in; [symmetry; exact H2|exact Hx].
Qed.

Lemma alone_within ceps seps D d C L cs : nonneg_matrix D -> (forall n, 0 <= d n) -> cs <> [] -> Forall (fun n => feasible D d C L ceps seps [n]) cs ->
  within C ceps 0 /\ within L seps 0.
Proof.
  intros DN dN Hcs Halone. destruct cs as [|n t]; [easy|]. pose proof (Forall_inv Halone) as (H1 & H2). split.
  - eapply P_3optstar5.within_mono; [exact H1|]. apply P_3optstar5.demand_nn, dN.
  - eapply P_3optstar5.within_mono; [exact H2|]. apply P_3optstar5.path_nn, DN.
Qed.

Section Loop.
  Variables (ceps seps : Z) (D : matrix) (d : demands) (C L : limit) (K : Z) (inf : Z -> bool) (postopt : bool) (max_incs : option nat) (cs : list nat).
  Hypothesis HsE : 0 <= seps.
  Hypothesis HcE : 0 <= ceps.
  Hypothesis HD : symmetric D.
  Hypothesis DN : nonneg_matrix D.
  Hypothesis D0 : D 0%nat 0%nat = 0.
  Hypothesis dN : forall n, 0 <= d n.
  Hypothesis zero_within : within C ceps 0 /\ within L seps 0.
  Hypothesis Hcs : cs <> [].
  Hypothesis Halone : Forall (fun n => feasible D d C L ceps seps [n]) cs.
  Notation feas := (feasible D d C L ceps seps).
  Notation step := (lr_step ceps seps D d C L K inf postopt max_incs).

  (** The state belongs to routes with the customers [cs]. *)
  Definition lr_inv (s : lr_state) : Prop :=
    exists rs, lr_sol s = encode rs /\ Forall customers_only rs /\ Permutation (concat rs) cs /\ (lr_post s = true -> Forall feas rs).
  Definition good (r : option (list nat)) : Prop :=
    exists rs, r = Some (encode rs) /\ Permutation (concat rs) cs /\ Forall customers_only rs /\ Forall (fun q => q <> []) rs /\ Forall feas rs.

  Lemma good_repair rs : Forall customers_only rs -> Permutation (concat rs) cs -> good (force_feasible ceps seps (encode rs) D d C L).
  Proof using Hcs Halone.
    intros Hc HP. assert (Hne : concat rs <> []) by (intros E; rewrite E in HP; apply Permutation_nil in HP; now apply Hcs).
    destruct (repair ceps seps D d C L rs Hc Hne) as (rs' & E & Ec & Hn & HF); [eapply Forall_perm; [symmetry; exact HP|exact Halone]|].
    exists rs'. split; [exact E|]. split; [now rewrite Ec|]. split; [|now split].
    assert (HA : Forall (fun n => n <> 0%nat) (concat rs')).
    { rewrite Ec. rewrite Forall_forall. intros n Hn' E0. subst n. apply in_concat in Hn'. destruct Hn' as (r & Hr & H0). rewrite Forall_forall in Hc. exact (proj1 (Forall_forall _ _) (Hc r Hr) 0%nat H0 eq_refl). }
    rewrite Forall_forall in *. intros r Hr. apply Forall_forall. intros n Hn'. apply HA. apply in_concat. eauto.
  Qed.
  Lemma good_normal rs : Forall customers_only rs -> Permutation (concat rs) cs -> Forall feas rs -> good (normalize_solution (Giant (encode rs))).
  Proof using HD.
    intros Hc HP HF. rewrite normalize_giant by exact Hc. exists (nf rs). split; [reflexivity|]. split; [now rewrite nf_concat|]. split; [now apply nf_customers|].
    split; [apply nf_nonempty|]. eapply same_routes_feasible; [exact HD|apply nf_same|]. rewrite Forall_forall in *. intros r Hr. apply filter_In in Hr. apply HF, Hr.
  Qed.

  Lemma step_inv s : lr_inv s -> match step s with inl s' => lr_inv s' | inr r => True end.
  Proof using HsE HD DN dN zero_within.
    intros (rs & Es & Hc & HP & Hpost). unfold lr_step. rewrite !Es.
    destruct (lr_post s) eqn:Ep.
    - specialize (Hpost eq_refl). destruct (do_3optstar_move _ _ _ _ _ _ _ _ _) as [[opt dl]|] eqn:Em; [|exact I].
      destruct (sound _ _ _ _ _ _ _ _ _ Hc HsE _ _ Em) as (rs' & Rg & E & W & P & _ & _ & _ & _ & _ & HF).
      exists rs'. split; [exact E|]. split; [exact W|]. split; [now rewrite P|]. intros _. now apply HF.
    - destruct (ends_with_empty (encode rs)); cbn [negb].
      2: { exists (rs ++ [[]]). cbn [lr_sol lr_post]. rewrite encode_snoc. split; [reflexivity|]. split; [apply Forall_app; split; [exact Hc|repeat constructor]|].
           split; [rewrite concat_app; cbn; now rewrite app_nil_r|discriminate]. }
      set (lo := if check_CL_constraints _ _ _ _ _ _ _ then _ else _).
      assert (Hlo : match lo with inl s' => lr_inv s' | inr r => True end).
      { unfold lo. clear lo. destruct (check_CL_constraints ceps seps (encode rs) D d C L) eqn:Ech.
        - apply (check_encode ceps seps D d C L DN dN rs Hc (proj1 zero_within)) in Ech. destruct postopt; [|exact I].
          exists rs. split; [reflexivity|]. split; [exact Hc|]. split; [exact HP|]. intros _. exact Ech.
        - match goal with |- context [if ?b then inr _ else _] => destruct b end; [exact I|].
          exists rs. split; [reflexivity|]. split; [exact Hc|]. split; [exact HP|]. discriminate. }
      destruct (do_3optstar_with _ _ _ _ _ _) as [[new dl]|] eqn:Em; [|exact Hlo].
      destruct (list_eq_dec _ _ _); [exact Hlo|].
      destruct (any_checker _ _ _ _ _ _ _ _ Hc Em) as (rs' & E & W & P). exists rs'. split; [exact E|]. split; [exact W|]. split; [now rewrite P|]. discriminate.
  Qed.

  Lemma step_keeps s : lr_inv s -> match step s with inl s' => lr_inv s' | inr r => good r end.
  Proof using HsE HD DN dN zero_within Hcs Halone.
    intros (rs & Es & Hc & HP & Hpost). unfold lr_step. rewrite !Es.
    destruct (lr_post s) eqn:Ep.
    - specialize (Hpost eq_refl). destruct (do_3optstar_move _ _ _ _ _ _ _ _ _) as [[opt dl]|] eqn:Em; [|now apply good_normal].
      destruct (sound _ _ _ _ _ _ _ _ _ Hc HsE _ _ Em) as (rs' & Rg & E & W & P & _ & _ & _ & _ & _ & HF).
      exists rs'. split; [exact E|]. split; [exact W|]. split; [now rewrite P|]. intros _. now apply HF.
    - destruct (ends_with_empty (encode rs)); cbn [negb].
      2: { exists (rs ++ [[]]). cbn [lr_sol lr_post]. rewrite encode_snoc. split; [reflexivity|]. split; [apply Forall_app; split; [exact Hc|repeat constructor]|].
           split; [rewrite concat_app; cbn; now rewrite app_nil_r|discriminate]. }
      set (lo := if check_CL_constraints _ _ _ _ _ _ _ then _ else _).
      assert (Hlo : match lo with inl s' => lr_inv s' | inr r => good r end).
      { unfold lo. clear lo. destruct (check_CL_constraints ceps seps (encode rs) D d C L) eqn:Ech.
        - apply (check_encode ceps seps D d C L DN dN rs Hc (proj1 zero_within)) in Ech. destruct postopt; [|now apply good_normal].
          exists rs. split; [reflexivity|]. split; [exact Hc|]. split; [exact HP|]. intros _. exact Ech.
        - match goal with |- context [if ?b then inr _ else _] => destruct b end; [now apply good_repair|].
          exists rs. split; [reflexivity|]. split; [exact Hc|]. split; [exact HP|]. discriminate. }
      destruct (do_3optstar_with _ _ _ _ _ _) as [[new dl]|] eqn:Em; [|exact Hlo].
      destruct (list_eq_dec _ _ _); [exact Hlo|].
      destruct (any_checker _ _ _ _ _ _ _ _ Hc Em) as (rs' & E & W & P). exists rs'. split; [exact E|]. split; [exact W|]. split; [now rewrite P|]. discriminate.
  Qed.

  Lemma loop_good fuel : forall stop s o, lr_inv s ->
    lr_loop step (fun sol => force_feasible ceps seps sol D d C L) fuel stop s = Some o ->
    match o with LrReturn r => good r | LrInterrupt r => good r end.
  Proof using HsE HD DN dN zero_within Hcs Halone.
    induction fuel as [|fuel IH]; intros stop s o Hi; cbn [lr_loop].
    - destruct stop as [[|n]|]; intros H; try discriminate. injection H as <-. destruct Hi as (rs & -> & Hc & HP & _). now apply good_repair.
    - destruct stop as [[|n]|].
      + intros H. injection H as <-. destruct Hi as (rs & -> & Hc & HP & _). now apply good_repair.
      + pose proof (step_keeps s Hi) as Hs. destruct (step s) as [s'|r]; [now apply IH|]. intros H. now injection H as <-.
      + pose proof (step_keeps s Hi) as Hs. destruct (step s) as [s'|r]; [now apply IH|]. intros H. now injection H as <-.
  Qed.

  (** The solution returned without the repair is a local optimum. *)
  Definition local_opt (rs : list (list nat)) : Prop :=
    forall rs', Forall customers_only rs' -> neighbour_3optstar (encode rs) (encode rs') -> Forall feas rs' -> routes_cost D rs <= routes_cost D rs' + seps.
  Definition lam_ok (s : lr_state) : Prop := 0 <= lam_or_zero (lr_lC s) /\ 0 <= lam_or_zero (lr_lL s).

  Lemma feasible_excess rs : Forall feas rs -> forall lC lL, relaxed K lC lL D d C L ceps seps rs = K * routes_cost D rs.
  Proof using HsE HcE.
    clear - HsE HcE. intros HF lC lL. unfold relaxed.
    assert (E : forall f : list nat -> Z, Forall (fun r => f r = 0) rs -> sumZ (map f rs) = 0).
    { clear. intros f H. induction H as [|r rs H1 H IH]; [reflexivity|]. cbn [map]. rewrite sumZ_cons, IH. lia. }
    rewrite !E; [lia| |]; eapply Forall_impl; try exact HF; intros r (H1 & H2); now apply within_excess.
  Qed.

  Section Multipliers.
  Variables lC lL : Z.
  Hypothesis HK : 0 < K.
  Hypothesis HlC : 0 <= lC.
  Hypothesis HlL : 0 <= lL.
  Notation search sol := (do_3optstar_with (check_lr3opt_move ceps seps D C L K lC lL) sol D d true None).
  Notation rlx := (relaxed K lC lL D d C L ceps seps).

  Lemma move_lowers rs sol' dl : Forall customers_only rs -> search (encode rs) = Some (sol', dl) ->
    exists rs', sol' = encode rs' /\ Forall customers_only rs' /\ Permutation (concat rs') (concat rs) /\ rlx rs' < rlx rs.
  Proof using HsE HcE HD DN D0 dN zero_within HK HlC HlL.
    clear - HsE HcE HD DN D0 dN zero_within HK HlC HlL. intros Hc H. destruct zero_within as (HC0 & HL0). assert (HK0 : 0 <= K) by lia.
    destruct (lr_sound ceps seps D d C L K lC lL rs true None Hc HcE HsE HK0 HlC HlL HD HC0 HL0 _ _ D0 H) as (rs' & Rg & E & W & P & Hlt & _ & _ & _ & Er).
    exists rs'. split; [exact E|]. split; [exact W|]. split; [exact P|]. cbn beta iota in Hlt. assert (0 <= K * seps) by now apply Z.mul_nonneg_nonneg. lia.
  Qed.
  Lemma never_same rs sol' dl : Forall customers_only rs -> search (encode rs) = Some (sol', dl) -> encode rs <> sol'.
  Proof using HsE HcE HD DN D0 dN zero_within HK HlC HlL.
    clear - HsE HcE HD DN D0 dN zero_within HK HlC HlL. intros Hc H E. destruct (move_lowers rs sol' dl Hc H) as (rs' & E' & W & _ & Hlt). rewrite E' in E. apply encode_inj in E; [|exact Hc|exact W]. subst rs'. lia.
  Qed.
  Lemma none_local rs : Forall customers_only rs -> Forall feas rs -> search (encode rs) = None -> local_opt rs.
  Proof using HsE HcE HD DN D0 dN zero_within HK HlC HlL.
    clear - HsE HcE HD DN D0 dN zero_within HK HlC HlL. intros Hc HF H rs' W HN HF'. destruct zero_within as (HC0 & HL0). assert (HK0 : 0 <= K) by lia.
    pose proof (lr_complete ceps seps D d C L K lC lL rs true None Hc HcE HsE HK0 HlC HlL HD HC0 HL0 rs' W HN) as G. rewrite H in G.
    rewrite !feasible_excess in G by assumption. nia.
  Qed.
  Lemma none_post_none rs : Forall customers_only rs -> Forall feas rs -> search (encode rs) = None ->
    do_3optstar_move ceps seps (encode rs) D d C L true None = None.
  Proof using HsE HcE HD DN D0 dN zero_within HK HlC HlL.
    clear - HsE HcE HD DN D0 dN zero_within HK HlC HlL. intros Hc HF H. destruct (do_3optstar_move _ _ _ _ _ _ _ _ _) as [[sol' dl]|] eqn:Em; [|reflexivity]. exfalso.
    destruct (sound _ _ _ _ _ _ _ _ _ Hc HsE _ _ Em) as (rs' & Rg & E & W & P & Hlt & WR & HN & HE & Hcost & Hf).
    specialize (Hcost HD D0). specialize (Hf HD HF). assert (HFR : Forall feas Rg).
    { destruct zero_within as (HC0 & HL0). assert (HX : Forall feas (filter nonempty Rg)) by (rewrite <- HE; rewrite Forall_forall in *; intros r Hr; apply filter_In in Hr; now apply Hf).
      rewrite Forall_forall in *. intros [|x r] Hr; [now apply feasible_nil|]. apply HX. apply filter_In. now split. }
    pose proof (none_local rs Hc HF H Rg WR HN HFR) as G. rewrite <- (P_3optstar7.cost_filter D Rg D0), <- HE, (P_3optstar7.cost_filter D rs' D0), Hcost in G. lia.
  Qed.
  End Multipliers.

  Notation loop := (lr_loop step (fun sol => force_feasible ceps seps sol D d C L)).

  (** ** Without the safeguard the result is a local optimum *)
  Definition best_found (r : option (list nat)) : Prop :=
    exists rs, r = Some (encode (nf rs)) /\ Forall customers_only rs /\ Permutation (concat rs) cs /\ Forall feas rs /\ local_opt rs.
  Lemma double_nonneg l : 0 <= lam_or_zero l -> 0 <= lam_or_zero (double l).
  Proof using. clear. destruct l as [x|]; cbn; lia. Qed.
  Lemma step_lam s s' : lam_ok s -> step s = inl s' -> lam_ok s'.
  Proof using.
    intros (H1 & H2). unfold lr_step.
    destruct (lr_post s); [destruct (do_3optstar_move _ _ _ _ _ _ _ _ _) as [[opt dl]|]; [intros E; injection E as <-; now split|discriminate]|].
    destruct (negb _); [intros E; injection E as <-; now split|].
    set (lo := if check_CL_constraints _ _ _ _ _ _ _ then _ else _).
    assert (Hlo : lo = inl s' -> lam_ok s').
    { unfold lo. destruct (check_CL_constraints _ _ _ _ _ _ _); [destruct postopt; [intros E; injection E as <-; now split|discriminate]|].
      match goal with |- context [if ?b then inr _ else _] => destruct b end; [discriminate|]. intros E. injection E as <-. split; cbn [lr_lC lr_lL]; now apply double_nonneg. }
    destruct (do_3optstar_with _ _ _ _ _ _) as [[new dl]|]; [|exact Hlo]. destruct (list_eq_dec _ _ _); [exact Hlo|]. intros E; injection E as <-; now split.
  Qed.
  Lemma step_best s r : 0 < K -> lr_inv s -> lam_ok s -> (forall x, inf x = false) -> max_incs = None -> step s = inr r -> best_found r.
  Proof using HsE HcE HD DN D0 dN zero_within Hcs Halone.
    intros HK Hi (H1 & H2) Hinf Hmax. pose proof Hi as (rs & Es & Hc & HP & Hpost). unfold lr_step. rewrite !Es.
    destruct (lr_post s) eqn:Ep.
    - specialize (Hpost eq_refl). destruct (do_3optstar_move _ _ _ _ _ _ _ _ _) as [[opt dl]|] eqn:Em; [discriminate|]. intros E. injection E as <-.
      exists rs. rewrite normalize_giant by exact Hc. split; [reflexivity|]. split; [exact Hc|]. split; [exact HP|]. split; [exact Hpost|].
      intros rs' W HN HF. eapply local_optimum; eassumption.
    - destruct (negb _); [discriminate|].
      match goal with |- context [do_3optstar_with ?c _ _ _ _ _] => destruct (do_3optstar_with c (encode rs) D d true None) as [[new dl]|] eqn:Em end.
      + pose proof (never_same _ _ HK H1 H2 rs new dl Hc Em) as Hns. destruct (list_eq_dec _ _ _); [contradiction|discriminate].
      + destruct (check_CL_constraints ceps seps (encode rs) D d C L) eqn:Ech.
        * apply (check_encode ceps seps D d C L DN dN rs Hc (proj1 zero_within)) in Ech. destruct postopt; [discriminate|]. intros E. injection E as <-.
          exists rs. rewrite normalize_giant by exact Hc. split; [reflexivity|]. split; [exact Hc|]. split; [exact HP|]. split; [exact Ech|].
          exact (none_local _ _ HK H1 H2 rs Hc Ech Em).
        * rewrite Hmax. assert (Ef : forall l, at_inf inf l = false) by (intros [x|]; cbn; auto). rewrite !Ef. cbn [orb].
          destruct (double (lr_lL s)); cbn [orb]; discriminate.
  Qed.
  Lemma loop_best fuel : 0 < K -> (forall x, inf x = false) -> max_incs = None -> forall stop s r, lr_inv s -> lam_ok s ->
    loop fuel stop s = Some (LrReturn r) -> best_found r.
  Proof using HsE HcE HD DN D0 dN zero_within Hcs Halone.
    intros HK Hinf Hmax. induction fuel as [|fuel IH]; intros stop s r Hi Hl; cbn [lr_loop].
    - destruct stop as [[|n]|]; discriminate.
    - pose proof (step_keeps s Hi) as Hs. pose proof (step_best s) as Hb. pose proof (step_lam s) as Hlam.
      destruct stop as [[|n]|]; [discriminate| |]; (destruct (step s) as [s'|r']; [apply IH; [exact Hs|now apply Hlam]|intros H; injection H as <-; now apply Hb]).
  Qed.
End Loop.
