(** * Proofs about lr3opt: the statements *)
From Coq Require Import ZifyBool ZifyNat.
From Verif Require Import Spec Spec_inter Spec_savings Spec_3optstar Spec_lr3opt PyBase M_util M_cvrp_ops M_psavings M_3optstar M_lr3opt M_lr3opt2 P_base P_util P_cvrp P_savfam P_lr3opt P_3optstar7 P_lr3opt3 P_lr3opt4 P_lr3opt5.

Lemma start_inv ceps seps D d C L N rs0 lC lL : covers N rs0 -> lr_inv ceps seps D d C L (seq 1 (N - 1)) (mklr (encode rs0) lC lL 0 false).
Proof. intros H. exists rs0. split; [reflexivity|]. split; [now apply (covers_only N)|]. split; [exact H|discriminate]. Qed.
Lemma seq_ne N : (2 <= N)%nat -> seq 1 (N - 1) <> [].
Proof. destruct N as [|[|N]]; [lia|lia|discriminate]. Qed.
Lemma alone_all N D d C L ceps seps : served_alone N D d C L ceps seps -> Forall (fun n => feasible D d C L ceps seps [n]) (seq 1 (N - 1)).
Proof. intros H. apply Forall_forall. intros n Hn. apply in_seq in Hn. apply H. lia. Qed.

Lemma lr_result ceps seps N D d C L K lC lL inf postopt max_incs rs0 fuel stop o :
    (2 <= N)%nat -> 0 <= seps -> symmetric D -> nonneg_matrix D -> (forall n, 0 <= d n) ->
    served_alone N D d C L ceps seps -> covers N rs0 ->
    lr3opt_init ceps seps D d C L K lC lL inf postopt max_incs (Some (encode rs0)) fuel stop = Some o ->
    exists rs, serves N D d C L ceps seps rs /\ (o = LrReturn (Some (encode rs)) \/ o = LrInterrupt (Some (encode rs))).
Proof.
  intros HN Hs HD DN dN Ha Hcov H. cbn [lr3opt_init] in H.
  pose proof (alone_within _ _ _ _ _ _ _ DN dN (seq_ne N HN) (alone_all _ _ _ _ _ _ _ Ha)) as Hz.
  pose proof (loop_good ceps seps D d C L K inf postopt max_incs _ Hs HD DN dN Hz (seq_ne N HN) (alone_all _ _ _ _ _ _ _ Ha) fuel stop _ o (start_inv ceps seps D d C L N rs0 lC lL Hcov) H) as G.
  destruct o as [r|r]; destruct G as (rs & -> & HP & _ & Hn & HF); exists rs; (split; [now split|]); [now left|now right].
Qed.
Lemma lr_local_optimum ceps seps N D d C L K lC lL inf postopt rs0 fuel stop r :
    (2 <= N)%nat -> 0 <= ceps -> 0 <= seps -> 0 < K -> (forall x, lC = Some x -> 0 <= x) -> (forall x, lL = Some x -> 0 <= x) ->
    symmetric D -> nonneg_matrix D -> D 0%nat 0%nat = 0 -> (forall n, 0 <= d n) ->
    served_alone N D d C L ceps seps -> covers N rs0 -> (forall x, inf x = false) ->
    lr3opt_init ceps seps D d C L K lC lL inf postopt None (Some (encode rs0)) fuel stop = Some (LrReturn r) ->
    exists rs ns, r = Some (encode ns) /\ same_routes (filter nonempty rs) ns /\ covers N rs /\ Forall (feasible D d C L ceps seps) rs /\
      forall rs', Forall customers_only rs' -> neighbour_3optstar (encode rs) (encode rs') -> Forall (feasible D d C L ceps seps) rs' ->
        routes_cost D rs <= routes_cost D rs' + seps.
Proof.
  intros HN Hc Hs HK HlC HlL HD DN D0 dN Ha Hcov Hinf H. cbn [lr3opt_init] in H.
  pose proof (alone_within _ _ _ _ _ _ _ DN dN (seq_ne N HN) (alone_all _ _ _ _ _ _ _ Ha)) as Hz.
  assert (Hl : lam_ok (mklr (encode rs0) lC lL 0 false)).
  { split; cbn [lr_lC lr_lL]; [destruct lC; cbn; [now apply HlC|lia]|destruct lL; cbn; [now apply HlL|lia]]. }
  destruct (loop_best ceps seps D d C L K inf postopt None _ Hs Hc HD DN D0 dN Hz (seq_ne N HN) (alone_all _ _ _ _ _ _ _ Ha) fuel HK Hinf eq_refl stop _ r (start_inv ceps seps D d C L N rs0 lC lL Hcov) Hl H) as (rs & -> & Hcu & HP & HF & Hloc).
  exists rs, (nf rs). split; [reflexivity|]. split; [apply nf_same|]. split; [exact HP|]. split; [exact HF|exact Hloc].
Qed.
Lemma lr_idle ceps seps N D d C L K lC lL inf max_incs rs0 fuel r :
    0 <= ceps -> 0 <= seps -> 0 < K -> (forall x, lC = Some x -> 0 <= x) -> (forall x, lL = Some x -> 0 <= x) ->
    symmetric D -> nonneg_matrix D -> D 0%nat 0%nat = 0 -> (forall n, 0 <= d n) -> within C ceps 0 -> within L seps 0 -> covers N rs0 ->
    lr3opt_init ceps seps D d C L K lC lL inf false max_incs (Some (encode rs0)) fuel None = Some (LrReturn r) ->
    lr3opt_init ceps seps D d C L K lC lL inf true max_incs (Some (encode rs0)) (S fuel) None = Some (LrReturn r).
Proof.
  intros Hc Hs HK HlC HlL HD DN D0 dN HC0 HL0 Hcov H.
  assert (Hl : lam_ok (mklr (encode rs0) lC lL 0 false)).
  { split; cbn [lr_lC lr_lL]; [destruct lC; cbn; [now apply HlC|lia]|destruct lL; cbn; [now apply HlL|lia]]. }
  exact (loop_idle ceps seps D d C L K inf max_incs _ Hs Hc HK HD DN D0 dN (conj HC0 HL0) fuel _ r (start_inv ceps seps D d C L N rs0 lC lL Hcov) Hl eq_refl H).
Qed.
Lemma lr_terminates ceps seps N D d C L K lC lL inf postopt max_incs rs0 :
    0 <= ceps -> 0 <= seps -> 0 < K -> (forall x, lC = Some x -> 0 <= x) -> (forall x, lL = Some x -> 0 <= x) ->
    symmetric D -> nonneg_matrix D -> D 0%nat 0%nat = 0 -> (forall n, 0 <= d n) -> within C ceps 0 -> within L seps 0 -> covers N rs0 ->
    (max_incs <> None \/ exists x M, lC = Some x /\ 0 < x /\ forall y, M <= y -> inf y = true) ->
    exists fuel0 r, forall fuel, (fuel0 <= fuel)%nat ->
      lr3opt_init ceps seps D d C L K lC lL inf postopt max_incs (Some (encode rs0)) fuel None = Some (LrReturn r).
Proof.
  intros Hc Hs HK HlC HlL HD DN D0 dN HC0 HL0 Hcov Hsafe. cbn [lr3opt_init].
  assert (Hg : good_state (seq 1 (N - 1)) (mklr (encode rs0) lC lL 0 false) rs0).
  { split; [reflexivity|]. split; [now apply (covers_only N)|]. split; [exact Hcov|]. split; [|reflexivity].
    split; cbn [lr_lC lr_lL]; [destruct lC; cbn; [now apply HlC|lia]|destruct lL; cbn; [now apply HlL|lia]]. }
  destruct Hsafe as [Hm|(x & M & E & Hx & HM)].
  - destruct max_incs as [k|]; [|easy]. exact (ends_max ceps seps D d C L K inf (Some k) _ Hs Hc HK HD DN D0 dN (conj HC0 HL0) postopt k rs0 _ eq_refl Hg).
  - refine (ends_inf ceps seps D d C L K inf max_incs _ Hs Hc HK HD DN D0 dN (conj HC0 HL0) postopt M HM _ x rs0 _ (le_n _) Hx _ Hg). exact E.
Qed.
Lemma lr_forever ceps seps N D d C L K lL inf postopt rs0 :
    0 <= seps -> symmetric D -> nonneg_matrix D -> (forall n, 0 <= d n) -> within C ceps 0 -> within L seps 0 -> covers N rs0 ->
    (forall rs, covers N rs -> ~ Forall (feasible D d C L ceps seps) rs) ->
    forall fuel, lr3opt_init ceps seps D d C L K None lL inf postopt None (Some (encode rs0)) fuel None = None.
Proof.
  intros Hs HD DN dN HC0 HL0 Hcov Hnone fuel. cbn [lr3opt_init].
  exact (loop_forever ceps seps D d C L K inf postopt (seq 1 (N - 1)) Hs HD DN dN (conj HC0 HL0) (fun rs _ HP => Hnone rs HP) fuel _ (start_inv ceps seps D d C L N rs0 None lL Hcov) eq_refl eq_refl).
Qed.

Lemma lr_move_priced ceps seps D d C L K lC lL first best rs sol' delta :
    0 <= ceps -> 0 <= seps -> 0 <= K -> 0 <= lC -> 0 <= lL -> symmetric D -> D 0%nat 0%nat = 0 -> within C ceps 0 -> within L seps 0 ->
    Forall customers_only rs ->
    do_3optstar_with (check_lr3opt_move ceps seps D C L K lC lL) (encode rs) D d first best = Some (sol', delta) ->
    exists rs' rs'', sol' = encode rs' /\ Forall customers_only rs' /\ Permutation (concat rs') (concat rs) /\
      relaxed K lC lL D d C L ceps seps rs' = relaxed K lC lL D d C L ceps seps rs + delta /\
      delta + K * seps < match best with Some b => b | None => 0 end /\
      neighbour_3optstar (encode rs) (encode rs'') /\ Forall customers_only rs'' /\ filter nonempty rs' = filter nonempty rs''.
Proof.
  intros Hc Hs HK HlC HlL HD D0 HC0 HL0 Hcu H.
  destruct (lr_sound ceps seps D d C L K lC lL rs first best Hcu Hc Hs HK HlC HlL HD HC0 HL0 _ _ D0 H) as (rs' & Rg & E & W & P & Hlt & WR & HN & HE & Er).
  exists rs', Rg. now repeat split.
Qed.
Lemma lr_move_none ceps seps D d C L K lC lL first rs :
    0 <= ceps -> 0 <= seps -> 0 <= K -> 0 <= lC -> 0 <= lL -> symmetric D -> within C ceps 0 -> within L seps 0 ->
    Forall customers_only rs ->
    do_3optstar_with (check_lr3opt_move ceps seps D C L K lC lL) (encode rs) D d first None = None ->
    forall rs', Forall customers_only rs' -> neighbour_3optstar (encode rs) (encode rs') ->
      relaxed K lC lL D d C L ceps seps rs <= relaxed K lC lL D d C L ceps seps rs' + K * seps.
Proof.
  intros Hc Hs HK HlC HlL HD HC0 HL0 Hcu H rs' W HN.
  pose proof (lr_complete ceps seps D d C L K lC lL rs first None Hcu Hc Hs HK HlC HlL HD HC0 HL0 rs' W HN) as G. rewrite H in G. lia.
Qed.
