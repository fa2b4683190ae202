(** * Proofs about the petal algorithm: the routes a sweep with alternative first routes gives *)
From Verif Require Import Spec Spec_rfcs Spec_inter Spec_savings PyBase P_base M_util M_psavings M_ssavings P_ssavings M_sweep P_sweep P_sweep2 P_sweep3.
From Coq Require Import ZifyBool ZifyNat Lia Arith List Permutation.
Import ListNotations.
Local Open Scope Z_scope.

Lemma NoDup_app_snoc {A} (l : list A) x : NoDup l -> ~ In x l -> NoDup (l ++ [x]).
Proof. intros H1 H2. apply (Permutation_NoDup (Permutation_cons_append l x)). now constructor. Qed.

Section Alt.
Variables ceps seps : Z.
Variable N : nat.
Variable D : matrix.
Variable d : demands.
Variables C L : limit.
Variable f : routing.
Variable order : list nat.
Variable ccw : bool.
Hypothesis Hf : solver N D f.
Hypothesis Halone : served_alone N D d C L ceps seps.
Hypothesis Hd : forall n, 0 <= d n.
Hypothesis Hnd : NoDup order.
Hypothesis Hcust : forall x, In x order -> (1 <= x < N)%nat.
Notation len := (length order).
Notation toured := (toured D).
Notation carries := (carries d C).

Definition good_rd (r : swroute) : Prop :=
  toured r /\ sr_set r <> [] /\ NoDup (sr_set r) /\ incl (sr_set r) order /\ carries r /\ within L seps (sr_cost r) /\ within C ceps (demand d (sr_set r)).

Definition AInv (st : swstate) : Prop :=
  (sw_pos st < len)%nat /\ NoDup (sr_set (sw_current st)) /\ incl (sr_set (sw_current st)) order /\ carries (sw_current st) /\
  (sr_set (sw_current st) <> [] -> within C ceps (demand d (sr_set (sw_current st)))) /\
  (forall x, In x order -> sw_routed st x = mem x (sr_set (sw_current st))) /\ sw_count st = 0%nat /\ Forall good_rd (sw_routes st) /\
  match sw_node st with
  | Some n => n = node_at order (sw_pos st) /\ sw_routed st n = false /\ sw_complete st = false
  | None => sw_complete st = true /\ sr_set (sw_current st) <> []
  end.
Definition First (s : nat) (st : swstate) : Prop :=
  (exists rd, In rd (sw_routes st) /\ sr_set rd = [s]) \/ (sr_set (sw_current st) = [] /\ sw_node st = Some s) \/ sr_set (sw_current st) = [s].

Lemma carries_within r : carries r -> sr_set r <> [] -> within C ceps (demand d (sr_set r)) -> forall n, exceeds C ceps (sr_demand r + d n) = false ->
  within C ceps (demand d (sr_set r ++ [n])).
Proof using All.
  intros Hc Hne Hw n He. rewrite exceeds_within in He. rewrite demand_snoc. destruct (is_set C) eqn:E.
  - rewrite <- (Hc E). exact He.
  - unfold within, is_set in *. destruct C as [c|]; [|exact I]. intros Hn. destruct (truthy (Some c)) eqn:E2; [discriminate|].
    unfold truthy in E2. destruct (Z.eqb_spec c 0); [contradiction|discriminate].
Qed.

Lemma proceed_inv pos n routes routed cur bound : 
  (pos < len)%nat -> NoDup (sr_set cur) -> incl (sr_set cur) order -> carries cur -> In n order -> routed n = false ->
  (forall x, In x order -> routed x = mem x (sr_set cur)) -> within C ceps (demand d (sr_set cur ++ [n])) -> Forall good_rd routes ->
  let st' := sw_proceed D d C L order ccw pos (Some n) routes routed 0 cur bound in
  AInv st' /\ sw_routes st' = routes /\ sr_set (sw_current st') = sr_set cur ++ [n].
Proof using All.
  intros H1 H2 H3 H4 H5 H6 H7 H8 H9. unfold sw_proceed. rewrite H6. cbn [negb].
  pose proof (next_unrouted_ok N order ccw Hcust (upd routed n true) pos H1) as HN.
  destruct (next_unrouted order ccw len pos pos (upd routed n true)) as (p' & x). destruct HN as (G1 & G2).
  cbn [sw_routes sw_current add_node sr_set]. split; [|auto].
  assert (Hni : ~ In n (sr_set cur)). { intros Hx. apply mem_in in Hx. rewrite <- H7 in Hx by assumption. congruence. }
  unfold AInv. cbn [sw_pos sw_current sr_set sw_routed sw_count sw_routes sw_node sw_complete add_node]. repeat split.
  - exact G1.
  - apply NoDup_app_snoc; assumption.
  - intros y Hy. apply in_app_or in Hy. destruct Hy as [Hy|[<-|[]]]; auto.
  - intros HC. change ((if is_set C then sr_demand cur + d n else sr_demand cur) = demand d (sr_set cur ++ [n])). rewrite HC, (H4 HC), demand_snoc. reflexivity.
  - intros _. exact H8.
  - intros y Hy. unfold upd. destruct (Nat.eqb_spec y n) as [->|Hn].
    + symmetry. apply mem_in. apply in_or_app. right. now left.
    + rewrite H7 by assumption. apply Bool.eq_iff_eq_true. rewrite !mem_in. split; [intros; apply in_or_app; auto|].
      intros Hz. apply in_app_or in Hz. destruct Hz as [Hz|[Hz|[]]]; [exact Hz|congruence].
  - exact H9.
  - destruct x as [y|]; [destruct G2 as [-> G2]; auto|]. split; [reflexivity|]. now destruct (sr_set cur).
Qed.

Lemma alt_iter fuel s st : (len * len + len <= fuel)%nat -> AInv st -> First s st ->
  match sw_iter ceps seps D d C L f order ccw true fuel st with
  | None => False
  | Some (inl routes) => Forall good_rd routes /\ exists rd, In rd routes /\ sr_set rd = [s]
  | Some (inr st') => AInv st' /\ First s st' /\ length (sr_set (sw_current st')) = S (length (sr_set (sw_current st)))
  end.
Proof using All.
  intros Hfuel (H1 & H2 & H3 & H4 & H5 & H6 & H7 & H8 & H9) HF. unfold sw_iter. rewrite H7.
  set (cur := sw_current st) in *.
  (* whether the route is complete *)
  set (complete1 := sw_complete st || _).
  set (pr := match sw_node st with Some n => if negb complete1 && exceeds L 0 (sw_bound st) then _ else _ | None => _ end).
  destruct pr as (bound1, complete2) eqn:Epr.
  assert (Hcomp : complete2 = false -> match sw_node st with Some n => exceeds C ceps (sr_demand cur + d n) = false | None => False end).
  { intros E. unfold pr in Epr. destruct (sw_node st) as [n|] eqn:En.
    - destruct H9 as (_ & _ & H9). unfold complete1 in Epr. rewrite H9 in Epr. cbn [orb] in Epr.
      destruct (exceeds C ceps (sr_demand cur + d n)); [|reflexivity]. cbn [negb andb] in Epr. congruence.
    - destruct H9 as (H9 & _). unfold complete1 in Epr. rewrite H9 in Epr. cbn in Epr. congruence. }
  assert (Hempty : sr_set cur = [] -> complete2 = false).
  { intros E. unfold pr in Epr. destruct (sw_node st) as [n|] eqn:En; [|destruct H9; contradiction].
    destruct H9 as (A1 & A2 & A3).
    assert (Hn : (1 <= n < N)%nat). { rewrite A1. apply Hcust, node_at_in, H1. }
    destruct (Halone n Hn) as [W1 W2]. unfold complete1 in Epr. rewrite A3 in Epr. cbn [orb] in Epr.
    assert (Ec : exceeds C ceps (sr_demand cur + d n) = false).
    { apply exceeds_within. unfold within in *. destruct C as [c|] eqn:EC; [|exact I]. intros Hc0.
      rewrite H4, E. 2:{ unfold is_set, truthy. destruct (Z.eqb_spec c 0); [contradiction|reflexivity]. }
      specialize (W1 Hc0). unfold demand in *. cbn [map sumZ fold_right] in *. lia. }
    rewrite Ec in Epr. cbn [negb andb] in Epr. destruct (exceeds L 0 (sw_bound st)); [|congruence].
    rewrite E in Epr. cbn [app] in Epr. destruct (Hf [n]) as (l & El & Hl); [discriminate|repeat constructor; easy| |].
    { intros j [<-|[]]. exact Hn. }
    apply Permutation_sym, Permutation_length_1_inv in Hl. subst l.
    rewrite El in Epr. cbn [snd] in Epr. injection Epr as _ <-. now apply exceeds_within. }
  destruct (sr_set cur) as [|y0 t0] eqn:Es.
  - (* nothing in the route yet *)
    rewrite (Hempty eq_refl). change (0 <? length (@nil nat))%nat with false. cbn [andb orb].
    specialize (Hcomp (Hempty eq_refl)). destruct (sw_node st) as [n|] eqn:En; [|easy]. destruct H9 as (A1 & A2 & A3).
    assert (Hin : In n order) by (rewrite A1; apply node_at_in, H1).
    assert (HW : within C ceps (demand d (sr_set cur ++ [n]))).
    { rewrite Es. destruct (Halone n (Hcust n Hin)) as [W1 _]. exact W1. }
    pose proof (proceed_inv (sw_pos st) n (sw_routes st) (sw_routed st) cur bound1) as HP.
    rewrite Es in HP. destruct HP as (B1 & B2 & B3); auto. { rewrite Es in HW. exact HW. }
    split; [exact B1|]. split; [|rewrite B3; reflexivity].
    destruct HF as [HF|[[_ HF]|HF]].
    + left. rewrite B2. exact HF.
    + right. right. rewrite B3. rewrite En in HF. injection HF as ->. reflexivity.
    + fold cur in HF. rewrite Es in HF. discriminate.
  - change (0 <? length (y0 :: t0))%nat with true. cbn [andb]. rewrite Bool.orb_true_r. rewrite <- Es in *.
    assert (Hne : sr_set cur <> []) by (rewrite Es; discriminate).
    destruct (routed_by_f_ok N D f order Hf Hcust cur Hne H2 H3) as (R1 & R2 & R3 & R4 & R5).
    set (cur1 := routed_by_f f cur) in *.
    assert (Hcar : carries cur1) by (intros HC; rewrite R2, R3; apply H4, HC).
    (* the length limit *)
    assert (HE : exists pos node cur2 routed complete3 interesting2,
      (if is_set L then
        match ensure_L seps d C L f order ccw fuel (sw_pos st) (sw_pos st) cur1 (sw_routed st) with
        | None => None
        | Some (p, r, routed) =>
            if Nat.eqb p (sw_pos st) then Some (sw_pos st, sw_node st, r, routed, complete2, true)
            else Some (p, match sw_node st with Some _ => Some (node_at order p) | None => None end, r, routed, true, false)
        end
       else Some (sw_pos st, sw_node st, cur1, sw_routed st, complete2, true)) = Some (pos, node, cur2, routed, complete3, interesting2) /\
      good_rd cur2 /\ (length (sr_set cur) = 1%nat -> cur2 = cur1) /\
      (complete3 = false -> pos = sw_pos st /\ node = sw_node st /\ cur2 = cur1 /\ interesting2 = true /\ complete2 = false /\
         forall x, In x order -> routed x = sw_routed st x)).
    { assert (G0 : within L seps (sr_cost cur1) -> good_rd cur1).
      { intros HW. unfold good_rd. rewrite R2. repeat split; auto. }
      destruct (is_set L) eqn:EL.
      - destruct (in_node_at order y0) as (q & Hq & Eq). { apply H3. rewrite Es. now left. }
        destruct (reach (negb ccw) len (sw_pos st) q H1 Hq) as (j & Hj & Ej).
        destruct (ensure_ok ceps seps N D d C L f order ccw Hf Halone Hcust fuel (sw_pos st) (sw_pos st) cur1 (sw_routed st)) as
          (fp' & r' & routed' & E & P1 & P2 & P3 & P4 & P5 & P6 & P7 & P8); auto; try (rewrite R2; assumption).
        { exists j. split; [lia|]. rewrite Ej, Eq, R2. split; [|rewrite Es; now left].
          assert (length (sr_set cur) <= len)%nat by (apply NoDup_incl_length; assumption).
          assert ((length (sr_set cur) - 1) * len <= len * len)%nat by (apply Nat.mul_le_mono_r; lia). lia. }
        rewrite E. rewrite R2 in *.
        assert (GG : good_rd r').
        { unfold good_rd. repeat split; auto. - intros z Hz. apply H3, P4, Hz.
          - refine (within_less _ _ _ _ (demand_incl _ _ _ P3 H2 P4 _) (H5 Hne)). intros; apply Hd. }
        assert (HL1 : length (sr_set cur) = 1%nat -> r' = cur1).
        { intros Hl. destruct P8 as [(_ & X)|(X0 & X1 & X2)]; [exact X|]. exfalso. destruct (sr_set cur) as [|u [|]]; cbn in Hl; try lia.
          destruct X1 as [X1|[]]. destruct (sr_set r') as [|v]; [easy|]. assert (In v [u]) as [Ev|[]] by (apply P4; now left). apply X2. left. congruence. }
        destruct (Nat.eqb_spec fp' (sw_pos st)) as [Efp|Efp].
        + exists (sw_pos st), (sw_node st), r', routed', complete2, true. split; [reflexivity|]. split; [exact GG|]. split; [exact HL1|].
          intros Hc3. specialize (Hcomp Hc3). destruct (sw_node st) as [n|] eqn:En; [|easy]. destruct H9 as (A1 & A2 & A3).
          assert (r' = cur1).
          { destruct P8 as [(_ & X)|(X0 & X1 & X2)]; [exact X|]. exfalso. rewrite Efp, <- A1 in X1. apply mem_in in X1. rewrite <- H6 in X1; [congruence|].
            rewrite A1. apply node_at_in, H1. }
          subst r'. repeat split; auto. intros x Hx. rewrite P7, R2. destruct (mem x (sr_set cur)); reflexivity.
        + eexists _, _, r', routed', true, false. split; [reflexivity|]. split; [exact GG|]. split; [exact HL1|discriminate].
      - exists (sw_pos st), (sw_node st), cur1, (sw_routed st), complete2, true. split; [reflexivity|].
        split; [apply G0; unfold within, is_set, truthy in *; destruct L as [l|]; [|exact I]; intros HL0; destruct (Z.eqb_spec l 0); [contradiction|discriminate]|].
        split; [auto|]. intros Hc3. auto 8. }
    destruct HE as (pos & node & cur2 & routed & complete3 & interesting2 & HE & G1 & G2 & G3).
    rewrite HE. clear HE.
    assert (HFirst : forall rs, rs = sw_routes st ++ [cur2] -> exists rd, In rd rs /\ sr_set rd = [s]).
    { intros rs ->. destruct HF as [(rd & X1 & X2)|[[X _]|X]].
      - exists rd. split; [apply in_or_app; auto|exact X2].
      - contradiction.
      - exists cur2. split; [apply in_or_app; right; now left|]. fold cur in X. rewrite G2 by (rewrite X; reflexivity). rewrite R2. exact X. }
    assert (HG : Forall good_rd (sw_routes st ++ [cur2])) by (apply Forall_app; auto).
    destruct complete3.
    + assert (Hlt : (0 <? length (sr_set cur2))%nat = true). { destruct G1 as (_ & G1 & _). destruct (sr_set cur2); [easy|reflexivity]. }
      rewrite Hlt. destruct (len <=? 0 + length (sr_set cur2))%nat; (split; [exact HG|apply HFirst; reflexivity]).
    + destruct (G3 eq_refl) as (-> & -> & -> & -> & Hc2 & Hr). specialize (Hcomp Hc2). destruct (sw_node st) as [n|] eqn:En; [|easy]. destruct H9 as (A1 & A2 & A3).
      assert (Hin : In n order) by (rewrite A1; apply node_at_in, H1).
      destruct (proceed_inv (sw_pos st) n (sw_routes st ++ [cur1]) routed cur1 (sr_cost cur1)) as (B1 & B2 & B3); auto; try (rewrite R2; auto).
      * rewrite Hr by assumption. exact A2.
      * intros x Hx. rewrite Hr by assumption. apply H6, Hx.
      * apply carries_within; auto.
      * split; [exact B1|]. split; [|rewrite B3, app_length, R2; cbn; lia]. left. rewrite B2. apply HFirst. reflexivity.
Qed.

Lemma alt_loop fuelL s : (len * len + len <= fuelL)%nat -> forall fuel st, AInv st -> First s st -> (len < fuel + length (sr_set (sw_current st)))%nat ->
  exists routes, (forall fuel', (fuel <= fuel')%nat -> sw_loop ceps seps D d C L f order ccw true fuelL fuel' st = Some routes) /\ Forall good_rd routes /\ exists rd, In rd routes /\ sr_set rd = [s].
Proof using All.
  intros HL. induction fuel as [|fuel IH]; intros st HA HF Hl.
  - exfalso. destruct HA as (_ & X1 & X2 & _). pose proof (NoDup_incl_length X1 X2). lia.
  - pose proof (alt_iter fuelL s st HL HA HF) as HI. destruct (sw_iter ceps seps D d C L f order ccw true fuelL st) as [[routes|st']|] eqn:E; [| |easy].
    + exists routes. split; [|exact HI]. intros [|fuel'] Hfu; [lia|]. cbn [sw_loop]. rewrite E. reflexivity.
    + destruct HI as (B1 & B2 & B3). destruct (IH st' B1 B2) as (routes & X1 & X2); [lia|]. exists routes. split; [|exact X2].
      intros [|fuel'] Hfu; [lia|]. cbn [sw_loop]. rewrite E. apply X1. lia.
Qed.

Lemma alt_sweep start : (start < len)%nat ->
  exists routes, (forall fuel, (len * len + len + 1 <= fuel)%nat -> do_one_sweep ceps seps D d C L f order ccw true start fuel = Some (Some routes)) /\ Forall good_rd routes /\ exists rd, In rd routes /\ sr_set rd = [node_at order start].
Proof using All.
  intros Hs. unfold do_one_sweep.
  destruct (nth_error order start) as [n|] eqn:En; [|apply nth_error_None in En; lia].
  assert (n = node_at order start) as -> by (unfold node_at; symmetry; apply nth_error_nth, En).
  set (st0 := mksw _ _ _ _ _ _ _ _).
  assert (HA : AInv st0).
  { unfold AInv. cbn. repeat split; auto; try constructor; try easy.
    - intros x Hx. specialize (Hcust x Hx). destruct (Nat.eqb_spec x 0); [lia|reflexivity].
    - specialize (Hcust _ (node_at_in order start Hs)). destruct (Nat.eqb_spec (node_at order start) 0); [lia|reflexivity]. }
  assert (HF : First (node_at order start) st0) by (right; left; auto).
  destruct (alt_loop (len * len + len + 1) (node_at order start) ltac:(lia) (len * len + len + 1) st0 HA HF) as (routes & X1 & X2); [cbn; lia|].
  exists routes. split; [|exact X2]. intros fuel Hfu. specialize (X1 _ (le_n _)).
  assert (Y : do_one_sweep ceps seps D d C L f order ccw true start (len * len + len + 1) = Some (Some routes)).
  { unfold do_one_sweep. rewrite En. unfold st0 in X1. rewrite X1. reflexivity. }
  pose proof (sweep_mono _ _ _ _ _ _ _ _ _ _ _ _ start _ Hfu Y) as Z0. unfold do_one_sweep in Z0. rewrite En in Z0. exact Z0.
Qed.
End Alt.
