(** * Proofs about lr3opt: the Lagrangean 3-opt* move *)
From Coq Require Import ZifyBool ZifyNat.
From Verif Require Import Spec Spec_inter Spec_3optstar Spec_lr3opt PyBase M_util M_psavings M_intra M_3optstar M_lr3opt M_lr3opt2 P_base P_util P_cvrp P_intra P_scan P_3optstar P_3optstar2 P_3optstar3 P_3optstar4 P_3optstar5 P_3optstar6 P_3optstar7 P_lr3opt2.
From Verif Require P_lr3opt.

Lemma unset_penalty lim eps lam x : is_set lim = false -> penalty lim eps lam x = 0.
Proof. intros H. unfold penalty. now rewrite P_lr3opt.unset_exceeds. Qed.
Lemma penalty_excess lim eps lam x : penalty lim eps lam x = lam * excess lim eps x.
Proof.
  destruct (is_set lim) eqn:S.
  - unfold penalty, excess. destruct lim as [c|]; [|discriminate]. assert (Hc : c <> 0) by (intros ->; discriminate).
    destruct (exceeds (Some c) eps x) eqn:H.
    + apply exceeds_true in H. cbn in H. destruct (Z.eqb_spec c 0); [lia|]. cbn [orb]. destruct (Z.leb_spec x (c + eps)); [exfalso; apply H; intros; lia|]. lia.
    + apply exceeds_within in H. cbn in H. specialize (H Hc). destruct (Z.leb_spec x (c + eps)); [|lia]. rewrite orb_true_r. lia.
  - rewrite unset_penalty by exact S. unfold excess. destruct lim as [c|]; [|lia]. unfold is_set in S. cbn in S. destruct (c =? 0); [cbn [orb]; lia|discriminate].
Qed.
Lemma excess_nonneg lim eps x : 0 <= eps -> 0 <= excess lim eps x.
Proof. intros He. unfold excess. destruct lim as [c|]; [|lia]. destruct (c =? 0); cbn [orb]; [lia|]. destruct (Z.leb_spec x (c + eps)); lia. Qed.
Lemma penalty_nonneg lim eps lam x : 0 <= eps -> 0 <= lam -> 0 <= penalty lim eps lam x.
Proof. intros He Hl. rewrite penalty_excess. apply Z.mul_nonneg_nonneg; [exact Hl|now apply excess_nonneg]. Qed.
Lemma within_excess lim eps x : 0 <= eps -> (within lim eps x <-> excess lim eps x = 0).
Proof.
  intros He. unfold within, excess. destruct lim as [c|]; [|easy]. destruct (Z.eqb_spec c 0); cbn [orb]; [split; [reflexivity|lia]|].
  destruct (Z.leb_spec x (c + eps)); split; intros H1; try lia.
Qed.

Section Checker.
  Variables (ceps seps : Z) (D : matrix) (C L : limit) (K lC lL : Z).
  Hypothesis HcE : 0 <= ceps.
  Hypothesis HsE : 0 <= seps.
  Hypothesis HlC : 0 <= lC.
  Hypothesis HlL : 0 <= lL.
  Notation fC := (penalty C ceps lC).
  Notation fL := (penalty L seps lL).
  Lemma addpen_nonneg n cum_d cum_l dep : forall edges prev rd rl, 0 <= addpen fC fL D n cum_d cum_l dep prev edges rd rl.
  Proof.
    induction edges as [|cur t IH]; intros prev rd rl; cbn [addpen].
    - pose proof (penalty_nonneg C ceps lC rd HcE HlC). pose proof (penalty_nonneg L seps lL rl HsE HlL). lia.
    - pose proof (penalty_nonneg C ceps lC rd HcE HlC). pose proof (penalty_nonneg L seps lL rl HsE HlL).
      match goal with |- 0 <= _ + ?X => assert (0 <= X) by apply IH end. destruct (dep prev cur); lia.
  Qed.
  Lemma lr_edges_eq best p n cum_d cum_l ld12 ld34 : forall edges prev delta rd rl rd' rl',
    (is_set C = true -> rd = rd') -> (is_set L = true -> rl = rl') ->
    lr_edges ceps seps D C L K lC lL best p n cum_d cum_l ld12 ld34 prev edges delta rd rl =
    (let full := delta + addpen fC fL D n cum_d cum_l (depot_before p ld12 ld34) prev edges rd' rl' in
     if full + K * seps <? best then Some full else None).
  Proof.
    induction edges as [|cur t IH]; intros prev delta rd rl rd' rl' Hd Hl; cbn [lr_edges addpen].
    - assert (E1 : fC rd = fC rd') by (destruct (is_set C) eqn:S; [now rewrite Hd|now rewrite !unset_penalty]).
      assert (E2 : fL rl = fL rl') by (destruct (is_set L) eqn:S; [now rewrite Hl|now rewrite !unset_penalty]).
      cbn zeta. now rewrite E1, E2, Z.add_assoc.
    - set (dp := depot_before p ld12 ld34 prev cur). cbn zeta.
      assert (E1 : is_set C = true -> fC rd = fC rd') by (intros S; now rewrite Hd). assert (E2 : is_set L = true -> fL rl = fL rl') by (intros S; now rewrite Hl).
      match goal with |- context [if dp && (best <=? ?x + _) then _ else _] => set (d1 := x) end.
      assert (Ed1 : d1 = delta + (if dp then fC rd' + fL rl' else 0)).
      { unfold d1. destruct dp; cbn [andb]; [|lia]. destruct (is_set C) eqn:SC, (is_set L) eqn:SL.
        - rewrite E1, E2 by reflexivity. lia.
        - rewrite E1 by reflexivity. rewrite (unset_penalty L seps lL rl' SL). lia.
        - rewrite E2 by reflexivity. rewrite (unset_penalty C ceps lC rd' SC). lia.
        - rewrite (unset_penalty C ceps lC rd' SC), (unset_penalty L seps lL rl' SL). lia. }
      set (rd2 := (if dp then cum_d (fst cur) else rd') + cum_d (snd cur)).
      set (rl2 := (if dp then cum_l (fst cur) else rl') + (D (n (fst cur)) (n (snd cur)) + cum_l (snd cur))).
      destruct (dp && (best <=? d1 + K * seps)) eqn:Hab.
      + pose proof (addpen_nonneg n cum_d cum_l (depot_before p ld12 ld34) t cur rd2 rl2) as Hn.
        destruct (Z.ltb_spec (delta + ((if dp then fC rd' + fL rl' else 0) + addpen fC fL D n cum_d cum_l (depot_before p ld12 ld34) cur t rd2 rl2) + K * seps) best); [lia|reflexivity].
      + rewrite (IH cur d1 _ _ rd2 rl2).
        * cbn zeta. rewrite Ed1. now rewrite !Z.add_assoc.
        * intros S. rewrite S. unfold rd2. rewrite Hd by exact S. destruct dp; reflexivity.
        * intros S. rewrite S. unfold rl2. rewrite Hl by exact S. destruct dp; reflexivity.
  Qed.
  Lemma removed_eq lim eps lam cum w ld12 ld34 : ld12 <> Some 0%nat -> ld34 <> Some 0%nat ->
    removed_penalties lim eps lam cum w ld12 ld34 =
    rempen (penalty lim eps lam) cum w (match ld12 with Some _ => true | None => false end) (match ld34 with Some _ => true | None => false end).
  Proof.
    intros H1 H2. assert (E : forall ld, ld <> Some 0%nat -> pos_truthy ld = match ld with Some _ => true | None => false end) by (intros [[|x]|] H; easy).
    unfold removed_penalties, rempen. rewrite !E by assumption. destruct (is_set lim) eqn:S; [reflexivity|].
    cbn zeta. rewrite !unset_penalty by exact S. destruct ld12, ld34; reflexivity.
  Qed.
  Lemma check_lr_eq rw best edges p n cum_d cum_l ld12 ld34 : ld12 <> Some 0%nat -> ld34 <> Some 0%nat ->
    check_lr3opt_move ceps seps D C L K lC lL rw best edges p n cum_d cum_l ld12 ld34 =
    (let b12 := match ld12 with Some _ => true | None => false end in
     let b34 := match ld34 with Some _ => true | None => false end in
     let full := K * (added_weights D n edges - rw)
                 - (rempen fC cum_d (fun _ => 0) b12 b34 +
                    rempen fL cum_l (tab [D (n 0%nat) (n 1%nat); D (n 2%nat) (n 3%nat); D (n 4%nat) (n 5%nat)] 0) b12 b34)
                 + addpen fC fL D n cum_d cum_l (depot_before p ld12 ld34) (0, 0)%nat edges 0 0 in
     if full + K * seps <? best then Some full else None).
  Proof.
    intros H1 H2. unfold check_lr3opt_move. rewrite !removed_eq by assumption. cbn zeta.
    match goal with |- (if ?x + _ <? _ then _ else _) = _ => set (d0 := x) end.
    pose proof (addpen_nonneg n cum_d cum_l (depot_before p ld12 ld34) edges (0, 0)%nat 0 0) as Hn.
    destruct (Z.ltb_spec (d0 + K * seps) best) as [Hlt|Hge].
    - rewrite (lr_edges_eq best p n cum_d cum_l ld12 ld34 edges (0, 0)%nat d0 0 0 0 0) by reflexivity. reflexivity.
    - destruct (Z.ltb_spec (d0 + addpen fC fL D n cum_d cum_l (depot_before p ld12 ld34) (0, 0)%nat edges 0 0 + K * seps) best); [lia|reflexivity].
  Qed.
End Checker.

Lemma relaxed_pens K lC lL D d C L ceps seps rs :
  relaxed K lC lL D d C L ceps seps rs = K * routes_cost D rs + pens (penalty C ceps lC) (penalty L seps lL) D d rs.
Proof.
  unfold relaxed, pens. rewrite <- Z.add_assoc. f_equal. induction rs as [|r rs IH]; [cbn; lia|]. cbn [map]. rewrite !sumZ_cons, <- IH, !penalty_excess. lia.
Qed.

Lemma addpen_ext fC fL D n n' cum_d cum_l dep : forall edges prev rd rl,
  Forall (fun e => (fst e <= 5)%nat /\ (snd e <= 5)%nat) edges -> (forall x, (x <= 5)%nat -> n x = n' x) ->
  addpen fC fL D n cum_d cum_l dep prev edges rd rl = addpen fC fL D n' cum_d cum_l dep prev edges rd rl.
Proof.
  induction edges as [|e t IH]; intros prev rd rl HF Hn; [reflexivity|]. cbn [addpen]. destruct (Forall_inv HF) as (H1 & H2).
  rewrite (Hn _ H1), (Hn _ H2). f_equal. apply IH; [exact (Forall_inv_tail HF)|exact Hn].
Qed.

(** The full change of the Lagrangean objective by a move, as the checker computes it. *)
Definition full_delta ceps seps (D : matrix) (d : demands) (C L : limit) K lC lL (sol : list nat) (i j k : nat) (edges : list edge) : Z :=
  let n := fun x => at_ sol (end_p i j k x) in
  let ld12 := ldepot sol (i + 1) j in
  let ld34 := ldepot sol (j + 1) k in
  let b12 := match ld12 with Some _ => true | None => false end in
  let b34 := match ld34 with Some _ => true | None => false end in
  K * (added_weights D n edges - (D (n 0%nat) (n 1%nat) + D (n 2%nat) (n 3%nat) + D (n 4%nat) (n 5%nat)))
  - (rempen (penalty C ceps lC) (cum_d_tab d sol i j k) (fun _ => 0) b12 b34 +
     rempen (penalty L seps lL) (cum_l_tab D sol i j k) (tab [D (n 0%nat) (n 1%nat); D (n 2%nat) (n 3%nat); D (n 4%nat) (n 5%nat)] 0) b12 b34)
  + addpen (penalty C ceps lC) (penalty L seps lL) D n (cum_d_tab d sol i j k) (cum_l_tab D sol i j k) (depot_before (end_p i j k) ld12 ld34) (0, 0)%nat edges 0 0.

Definition lr_facts ceps seps (D : matrix) (d : demands) (C L : limit) K lC lL (rs : list (list nat)) (i j k : nat) (m : list edge * recipe) (ch : list chunk) : Prop :=
  exists Rg R', apply_recipe (encode rs) (cuts_of (encode rs) i j k) (snd m) = encode R' /\ drops Rg R' /\ Forall customers_only Rg /\
    encode Rg = concat (map nodes ch) /\ Permutation (concat Rg) (concat rs) /\
    relaxed K lC lL D d C L ceps seps Rg = relaxed K lC lL D d C L ceps seps rs + full_delta ceps seps D d C L K lC lL (encode rs) i j k (fst m).

Lemma all_lr_facts ceps seps D d CC LL K lC lL rs i j k ra pa B C pe re : pieces rs i j k ra pa B C pe re -> symmetric D ->
  within CC ceps 0 -> within LL seps 0 ->
  length (the_moves rs i j k) = length (chains_for (Op [] ra pa) B C (Op pe re [])) /\
  forall m ch, In (m, ch) (combine (the_moves rs i j k) (chains_for (Op [] ra pa) B C (Op pe re []))) ->
    lr_facts ceps seps D d CC LL K lC lL rs i j k m ch.
Proof.
  intros HPc HD HC0 HL0. destruct (all_facts ceps seps D d CC LL rs i j k ra pa B C pe re HPc) as (Hlen & HF0). split; [exact Hlen|].
  destruct HPc as [Hpa Hpe WB WC SB SC Wra Wre Es Li Lj Lk Er].
  pose proof (ld12_eq ra re pa pe B C i j k WB Li Lj Lk) as E12. rewrite <- Es in E12.
  pose proof (ld34_eq ra re pa pe B C i j k WC Li Lj Lk) as E34. rewrite <- Es in E34.
  pose proof (nodes_ne B SB) as NB. pose proof (nodes_ne C SC) as NC. apply ne_len in NB, NC.
  assert (Hijk : (i < j < k)%nat) by lia.
  assert (PB : is_op B = true -> (pre_len B < length (nodes B))%nat) by (destruct B; cbn [is_op pre_len nodes]; [discriminate|intros _; rewrite !app_length; cbn; lia]).
  assert (PC : is_op C = true -> (pre_len C < length (nodes C))%nat) by (destruct C; cbn [is_op pre_len nodes]; [discriminate|intros _; rewrite !app_length; cbn; lia]).
  assert (H12 : match ldepot (encode rs) (i + 1) j with Some x => is_op B = true /\ (i < x <= j)%nat | None => is_op B = false end).
  { rewrite E12. destruct (is_op B); [|reflexivity]. split; [reflexivity|]. specialize (PB eq_refl). lia. }
  assert (H34 : match ldepot (encode rs) (j + 1) k with Some x => is_op C = true /\ (j < x <= k)%nat | None => is_op C = false end).
  { rewrite E34. destruct (is_op C); [|reflexivity]. split; [reflexivity|]. specialize (PC eq_refl). lia. }
  assert (B12 : match ldepot (encode rs) (i + 1) j with Some _ => true | None => false end = is_op B) by (rewrite E12; destruct (is_op B); reflexivity).
  assert (B34 : match ldepot (encode rs) (j + 1) k with Some _ => true | None => false end = is_op C) by (rewrite E34; destruct (is_op C); reflexivity).
  assert (EM : the_moves rs i j k = moves_for (is_op B) (is_op C)) by (unfold the_moves; now rewrite B12, B34).
  intros m ch Hin. destruct (HF0 m ch Hin) as (Rg & R' & F1 & F2 & F3 & F4 & F5 & F6). rewrite EM in Hin.
  pose proof (Forall_combine _ _ _ (perms ra re pa pe B C) m ch Hin) as (Rg2 & HR & HP).
  assert (HW : Forall wfc ch /\ match ch with Op [] R p :: _ => customers_only p | _ => False end).
  { refine (Forall_combine _ _ _ (chain_wf (Op [] ra pa) B C (Op pe re []) _ WB WC _ I) m ch Hin); cbn; repeat split; (assumption || constructor). }
  assert (Hne : ch <> []) by (intros ->; easy).
  assert (WR : wfc (result ch)).
  { destruct HW as (HW & _). destruct ch as [|c0 cs]; [easy|]. unfold result. cbn [tl hd]. pose proof (Forall_inv HW) as W0. apply Forall_inv_tail in HW. clear - HW W0.
    revert c0 W0. induction cs as [|c cs IH]; intros c0 W0; [exact W0|]. cbn [fold_left]. apply IH; [exact (Forall_inv_tail HW)|]. apply wfc_glue; [exact W0|exact (Forall_inv HW)]. }
  rewrite HR in WR. destruct WR as (_ & WR & _).
  assert (ERg : Rg2 = Rg).
  { apply encode_inj; [exact WR|exact F3|]. rewrite F4, <- result_nodes, HR by exact Hne. cbn [nodes app]. now rewrite app_nil_r. }
  subst Rg2.
  assert (Hn : forall x, (x <= 5)%nat -> at_ (encode rs) (end_p i j k x) = tab [last pa 0%nat; fst_ B; lst_ B; fst_ C; lst_ C; hd 0%nat pe] (last pa 0%nat) x).
  { intros x Hx. rewrite Es. destruct (n_tab ra re pa pe B C i j k Hpa Hpe SB SC Li Lj Lk x) as [G|G]; [exact G|lia]. }
  pose proof (cum_d_eq ra re pa pe B C i j k Hpa Hpe WB WC SB SC Li Lj Lk d) as Ed. rewrite <- Es in Ed.
  pose proof (cum_l_eq ra re pa pe B C i j k Hpa Hpe WB WC SB SC Li Lj Lk D HD) as El. rewrite <- Es in El.
  pose proof (Forall_combine_l _ _ _ (edges_small (is_op B) (is_op C)) m ch Hin) as Hsm. cbn beta in Hsm.
  exists Rg, R'. split; [exact F1|]. split; [exact F2|]. split; [exact F3|]. split; [exact F4|]. split; [exact F5|].
  destruct (F6 HD) as (G1 & _). cbn zeta in G1. rewrite !relaxed_pens, G1. unfold full_delta. cbn zeta. rewrite B12, B34.
  assert (C0 : penalty CC ceps lC 0 = 0) by (unfold penalty; apply exceeds_within in HC0; now rewrite HC0).
  assert (L0 : penalty LL seps lL 0 = 0) by (unfold penalty; apply exceeds_within in HL0; now rewrite HL0).
  pose proof (Forall2_combine _ _ _ (pens_ok ra re pa pe B C i j k SB SC Hijk _ _ H12 H34 D d HD _ _ C0 L0) m ch Hin) as A3. cbn beta zeta in A3.
  rewrite Er, HR in A3. cbn [rts] in A3. rewrite A3, Ed, El.
  rewrite (addpen_ext _ _ _ _ _ _ _ _ _ _ _ _ Hsm Hn). rewrite !(Hn 0%nat), !(Hn 1%nat), !(Hn 2%nat), !(Hn 3%nat), !(Hn 4%nat), !(Hn 5%nat) by lia. lia.
Qed.

(** ** The search *)
Definition lr_cands ceps seps D d CC LL K lC lL rs i j k : list (Z * (recipe * list (option nat))) :=
  map (fun m : list edge * recipe => (full_delta ceps seps D d CC LL K lC lL (encode rs) i j k (fst m), (snd m, cuts_of (encode rs) i j k))) (the_moves rs i j k).

Lemma ldepot_not0 sol a b : (1 <= a)%nat -> ldepot sol a b <> Some 0%nat.
Proof. intros Ha H. unfold ldepot in H. apply find_some in H. destruct H as (H & _). rewrite in_range in H. lia. Qed.

Section LrSearch.
  Variables (ceps seps : Z) (D : matrix) (d : demands) (C L : limit) (K lC lL : Z) (rs : list (list nat)) (first : bool) (best : option Z).
  Hypothesis Hrs : Forall customers_only rs.
  Hypothesis HcE : 0 <= ceps.
  Hypothesis HsE : 0 <= seps.
  Hypothesis HK : 0 <= K.
  Hypothesis HlC : 0 <= lC.
  Hypothesis HlL : 0 <= lL.
  Hypothesis HD : symmetric D.
  Hypothesis HC0 : within C ceps 0.
  Hypothesis HL0 : within L seps 0.
  Notation start := (match best with Some b => b | None => 0 end).
  Notation search := (do_3optstar_with (check_lr3opt_move ceps seps D C L K lC lL) (encode rs) D d first best).
  Notation rlx := (relaxed K lC lL D d C L ceps seps).
  Notation all := (flat_map (fun t => lr_cands ceps seps D d C L K lC lL rs (fst (fst t)) (snd (fst t)) (snd t)) (triples (length (encode rs)))).

  Lemma lr_try_scan i j k s : try_moves (check_lr3opt_move ceps seps D C L K lC lL) (encode rs) D d first i j k s =
    scan (K * seps) first (lr_cands ceps seps D d C L K lC lL rs i j k) s.
  Proof using HcE HsE HlC HlL.
    unfold try_moves, lr_cands, scan. fold (the_moves rs i j k). rewrite for_break_map. apply for_break_ext. intros m s' _.
    rewrite check_lr_eq by (assumption || (apply ldepot_not0; lia)). cbn zeta. unfold try_move. cbn [fst snd].
    fold (full_delta ceps seps D d C L K lC lL (encode rs) i j k (fst m)).
    match goal with |- context [if ?x + K * seps <? snd s' then Some _ else None] => change x with (full_delta ceps seps D d C L K lC lL (encode rs) i j k (fst m)) end.
    destruct (_ <? _); reflexivity.
  Qed.
  Lemma lr_do_scan : search =
    match fst (scan (K * seps) first all (None, start)) with
    | (Some (r, cuts), bd) => Some (apply_recipe (encode rs) cuts r, bd)
    | (None, _) => None
    end.
  Proof using HcE HsE HlC HlL.
    unfold do_3optstar_with. rewrite loops_flat. rewrite <- scan_flat.
    rewrite (for_break_ext _ _ (fun t s => scan (K * seps) first (lr_cands ceps seps D d C L K lC lL rs (fst (fst t)) (snd (fst t)) (snd t)) s)) by (intros; apply lr_try_scan).
    destruct (for_break _ _ _) as [[bm bd] b]. cbn [fst]. destruct bm as [[r cuts]|]; reflexivity.
  Qed.
  Lemma lr_cand_in dl r cuts : In (dl, (r, cuts)) all -> exists Rg R', neighbour_3optstar (encode rs) (encode Rg) /\ Forall customers_only Rg /\
    apply_recipe (encode rs) cuts r = encode R' /\ drops Rg R' /\ Permutation (concat Rg) (concat rs) /\ rlx Rg = rlx rs + dl.
  Proof using Hrs HD HC0 HL0.
    intros H. apply in_flat_map in H. destruct H as (((i & j) & k) & Ht & H). apply in_triples in Ht. destruct Ht as (Hijk & Hk). cbn [fst snd] in H.
    destruct (pieces_exist rs i j k Hrs Hijk Hk) as (ra & pa & B & Cc & pe & re & HP).
    destruct (all_lr_facts ceps seps D d C L K lC lL rs i j k ra pa B Cc pe re HP HD HC0 HL0) as (Hlen & HF).
    unfold lr_cands in H. apply in_map_iff in H. destruct H as (m & H & Hm). injection H as Edl Er Ec.
    assert (Hch : exists ch, In (m, ch) (combine (the_moves rs i j k) (chains_for (Op [] ra pa) B Cc (Op pe re [])))).
    { clear - Hm Hlen. revert Hlen. generalize (chains_for (Op [] ra pa) B Cc (Op pe re [])). induction (the_moves rs i j k) as [|x l IH]; intros [|y q] Hl; try easy.
      destruct Hm as [<-|Hm]; [exists y; now left|]. destruct (IH Hm q) as (ch & Hch); [now injection Hl|]. exists ch. now right. }
    destruct Hch as (ch & Hch). destruct (HF m ch Hch) as (Rg & R' & F1 & F2 & F3 & F4 & F5 & F6).
    exists Rg, R'. split; [rewrite F4; eapply chain_neighbour; [exact HP|]; eapply in_combine_r; exact Hch|]. split; [exact F3|].
    split; [now rewrite <- Er, <- Ec|]. split; [exact F2|]. split; [exact F5|]. now rewrite F6, Edl.
  Qed.
  Lemma lr_cand_complete Rg : Forall customers_only Rg -> neighbour_3optstar (encode rs) (encode Rg) -> exists m, In (rlx Rg - rlx rs, m) all.
  Proof using Hrs HD HC0 HL0.
    intros WR HN. destruct (neighbour_chain rs _ Hrs HN) as (i & j & k & ra & pa & B & Cc & pe & re & ch & Hijk & Hk & HP & Hch & El).
    destruct (all_lr_facts ceps seps D d C L K lC lL rs i j k ra pa B Cc pe re HP HD HC0 HL0) as (Hlen & HA).
    assert (Hm : exists m, In (m, ch) (combine (the_moves rs i j k) (chains_for (Op [] ra pa) B Cc (Op pe re [])))).
    { clear - Hch Hlen. revert Hlen Hch. generalize (chains_for (Op [] ra pa) B Cc (Op pe re [])). induction (the_moves rs i j k) as [|x l IH]; intros [|y q] Hl Hch; try easy.
      destruct Hch as [<-|Hch]; [exists x; now left|]. destruct (IH q) as (m & Hm); [now injection Hl|exact Hch|]. exists m. now right. }
    destruct Hm as (m & Hm). destruct (HA m ch Hm) as (Rg' & R' & F1 & F2 & F3 & F4 & F5 & F6).
    assert (ER : Rg' = Rg) by (apply encode_inj; [exact F3|exact WR|congruence]). subst Rg'.
    exists (snd m, cuts_of (encode rs) i j k).
    apply in_flat_map. exists (i, j, k). split; [now apply in_triples|]. cbn [fst snd]. unfold lr_cands. apply in_map_iff. exists m. split; [|eapply in_combine_l; exact Hm].
    f_equal. rewrite F6. lia.
  Qed.

  Lemma relaxed_filter : D 0%nat 0%nat = 0 -> forall l, rlx (filter nonempty l) = rlx l.
  Proof using HC0 HL0.
    intros H0 l. rewrite !relaxed_pens. rewrite cost_filter by exact H0. f_equal. induction l as [|[|x r] l IH]; [reflexivity| |]; cbn [filter nonempty]; rewrite ?pens_cons, IH; [|reflexivity].
    replace (route_cost D []) with 0 by (unfold route_cost; cbn; lia). change (demand d []) with 0.
    unfold penalty. apply exceeds_within in HC0, HL0. rewrite HC0, HL0. lia.
  Qed.
  Lemma lr_sound sol' delta : D 0%nat 0%nat = 0 -> search = Some (sol', delta) ->
    exists rs' Rg, sol' = encode rs' /\ Forall customers_only rs' /\ Permutation (concat rs') (concat rs) /\ delta + K * seps < start /\
      Forall customers_only Rg /\ neighbour_3optstar (encode rs) (encode Rg) /\ filter nonempty rs' = filter nonempty Rg /\
      rlx rs' = rlx rs + delta.
  Proof using Hrs HcE HsE HlC HlL HD HC0 HL0 HK.
    intros H0. rewrite lr_do_scan. assert (He : 0 <= K * seps) by now apply Z.mul_nonneg_nonneg.
    pose proof (scan_spec (K * seps) first all start He) as HS. unfold scan_post in HS. destruct (fst (scan _ _ _ _)) as [bm bd]. cbn [fst snd] in HS.
    destruct bm as [[r cuts]|]; [|discriminate]. intros E. injection E as <- <-. destruct HS as (Hin & Hlt & _).
    destruct (lr_cand_in bd r cuts Hin) as (Rg & R' & HN & WR & Ea & HDr & HP & HS).
    exists R', Rg. split; [exact Ea|]. split; [now apply (drops_Forall _ Rg)|]. split; [now rewrite (drops_concat _ _ HDr)|]. split; [exact Hlt|]. split; [exact WR|].
    split; [exact HN|]. split; [apply HDr|]. rewrite <- HS. rewrite <- (relaxed_filter H0 R'), <- (relaxed_filter H0 Rg). now rewrite (proj2 HDr).
  Qed.
  Lemma lr_complete : forall Rg, Forall customers_only Rg -> neighbour_3optstar (encode rs) (encode Rg) ->
    match search with
    | None => rlx rs + start <= rlx Rg + K * seps
    | Some (_, delta) => first = false -> rlx rs + delta <= rlx Rg + K * seps
    end.
  Proof using Hrs HcE HsE HlC HlL HD HC0 HL0 HK.
    intros Rg WR HN. destruct (lr_cand_complete Rg WR HN) as (m & Hin). assert (He : 0 <= K * seps) by now apply Z.mul_nonneg_nonneg.
    rewrite lr_do_scan. pose proof (scan_spec (K * seps) first all start He) as HS. unfold scan_post in HS. destruct (fst (scan _ _ _ _)) as [bm bd]. cbn [fst snd] in HS.
    destruct bm as [[r cuts]|].
    - destruct HS as (_ & _ & HS & _). intros Hf. specialize (HS Hf _ _ Hin). lia.
    - destruct HS as (_ & HS). specialize (HS _ _ Hin). lia.
  Qed.
End LrSearch.
