(** * Correctness of validate_solution_feasibility *)
From Verif Require Import Spec PyBase M_util M_cvrp_ops P_base.
From Coq Require Import ZifyBool ZifyNat.

(** ** The covering array *)
Definition cov_run (s : cover_st) (l : list nat) : cover_st := fold_left cover_visit l s.

Lemma cov_run_app s l1 l2 : cov_run s (l1 ++ l2) = cov_run (cov_run s l1) l2.
Proof. apply fold_left_app. Qed.

Lemma cov_run_spec l : forall s, 
  (forall k, covering (cov_run s l) k = true <-> covering s k = true \/ In k l) /\
  (cover_flag (cov_run s l) = true <->
     cover_flag s = true /\ NoDup (customers l) /\
     forall k, In k (customers l) -> covering s k = false).
Proof.
  induction l as [|x l IH]; intros s; cbn [cov_run fold_left].
  - split; [intros k; cbn; tauto|]. cbn. split; [|easy]. intros H. repeat split; [easy|constructor|easy].
  - specialize (IH (cover_visit s x)). fold (cov_run (cover_visit s x) l).
    destruct IH as [IH1 IH2]. split.
    + intros k. rewrite IH1. unfold cover_visit. destruct (covering s x) eqn:E.
      * destruct (Nat.eqb_spec x 0) as [->|Hx]; cbn [covering In]; split; intros [H|H]; auto;
          destruct H as [<-|H]; auto.
      * cbn [covering In]. destruct (Nat.eqb_spec k x) as [->|Hk]; [tauto|].
        split; intros [H|H]; auto. destruct H as [H|H]; [congruence|auto].
    + rewrite IH2. unfold cover_visit.
      unfold customers at 3 4. cbn [filter]. fold (customers l).
      destruct (Nat.eqb_spec x 0) as [->|Hx]; cbn [negb].
      * destruct (covering s 0%nat) eqn:E; [tauto|]. cbn [covering cover_flag].
        split; intros (H1 & H2 & H3); repeat split; auto; intros k Hk; specialize (H3 k Hk).
        -- destruct (Nat.eqb_spec k 0); [easy|exact H3].
        -- destruct (Nat.eqb_spec k 0) as [->|]; [|exact H3].
           apply filter_In in Hk. destruct Hk as [_ Hk]. discriminate.
      * destruct (covering s x) eqn:E; cbn [covering cover_flag].
        -- split; [intros [H _]; easy|]. intros (_ & _ & H). rewrite H in E; [easy|now left].
        -- split.
           ++ intros (H1 & H2 & H3). repeat split; auto.
              ** constructor; auto. intros Hin. specialize (H3 x Hin).
                 rewrite Nat.eqb_refl in H3. discriminate.
              ** intros k [<-|Hk]; [exact E|]. specialize (H3 k Hk).
                 destruct (Nat.eqb k x); [discriminate|exact H3].
           ++ intros (H1 & H2 & H3). inversion_clear H2. repeat split; auto.
              intros k Hk. destruct (Nat.eqb_spec k x) as [->|]; [contradiction|].
              apply H3. now right.
Qed.

Lemma count_true_all N f : count_true N f = N <-> forall k, (k < N)%nat -> f k = true.
Proof.
  unfold count_true. split.
  - intros H k Hk. destruct (f k) eqn:E; [reflexivity|].
    assert (HL : (length (filter f (seq 0 N)) < length (seq 0 N))%nat).
    { assert (Hin : In k (seq 0 N)) by (apply in_seq; lia).
      revert Hin. generalize (seq 0 N). intros l. induction l as [|a l IH]; [easy|].
      intros [->|Hin]; cbn.
      - rewrite E. pose proof (filter_len_le f l). lia.
      - specialize (IH Hin). destruct (f a); cbn; lia. }
    rewrite seq_length in HL. lia.
  - intros H. rewrite <- (seq_length N 0) at 2. f_equal.
    assert (Hf : forall k, In k (seq 0 N) -> f k = true) by (intros k Hk; apply in_seq in Hk; apply H; lia).
    revert Hf. generalize (seq 0 N). intros l. induction l as [|a l IH]; [reflexivity|].
    intros Hf. cbn. rewrite (Hf a) by now left. f_equal. apply IH. intros k Hk; apply Hf; now right.
Qed.

Lemma cov_complete N l : (0 < N)%nat -> Forall (fun n => (n < N)%nat) l -> In 0%nat l ->
  (Permutation (customers l) (seq 1 (N - 1)) <->
   NoDup (customers l) /\ forall k, (k < N)%nat -> In k l).
Proof.
  intros HN Hl H0. split.
  - intros HP. split.
    + eapply Permutation_NoDup; [symmetry; exact HP|apply seq_NoDup].
    + intros k Hk. destruct k as [|k]; [easy|].
      assert (Hin : In (S k) (customers l)).
      { eapply Permutation_in; [symmetry; exact HP|]. apply in_seq. lia. }
      apply filter_In in Hin. tauto.
  - intros [Hnd Hall]. apply NoDup_Permutation; [easy|apply seq_NoDup|].
    intros k. unfold customers. rewrite filter_In, in_seq. rewrite Forall_forall in Hl.
    split.
    + intros [Hin Hk]. specialize (Hl k Hin). destruct k; [discriminate|lia].
    + intros Hk. split; [apply Hall; lia|]. destruct k; [lia|reflexivity].
Qed.

(** ** Loops *)
Section V.
Variables (D : matrix) (d : demands) (C L : limit) (eps : Z).
Let setC := match truthy C with Some _ => true | None => false end.
Let setL := match truthy L with Some _ => true | None => false end.

Lemma exceeds_unset lim v : truthy lim = None -> exceeds lim eps v = false.
Proof. unfold exceeds. now intros ->. Qed.

Lemma head_loop_spec h t : customers_only h -> forall i prev cs tc tl,
  head_loop D d setC setL (h ++ 0%nat :: t) i prev cs tc tl =
  (cov_run cs (h ++ [0%nat]),
   (if setC then tc + demand d h + d 0%nat else tc),
   (if setL then tl + path_cost D (prev :: h ++ [0%nat]) else tl),
   (if setL then 0%nat else prev), Some (i + length h)%nat).
Proof.
  induction 1 as [|x h Hx _ IH]; intros i prev cs tc tl; cbn [app head_loop length cov_run fold_left].
  - cbn [Nat.eqb]. rewrite path_cost_cons2, path_cost_one. unfold demand; cbn [map].
    rewrite Nat.add_0_r. unfold sumZ; cbn [fold_right].
    destruct setC, setL; rewrite ?Z.add_0_r; reflexivity.
  - destruct (Nat.eqb_spec x 0); [easy|]. rewrite IH. fold (cov_run (cover_visit cs x) (h ++ [0%nat])).
    rewrite (path_cost_cons2 D prev x). rewrite demand_cons.
    assert (E4 : (i + 1 + length h = i + S (length h))%nat) by lia. rewrite E4.
    destruct setC, setL; rewrite ?Z.add_assoc; reflexivity.
Qed.

Lemma head_loop_none h : customers_only h -> forall i prev cs tc tl,
  exists tc' tl' prev', head_loop D d setC setL h i prev cs tc tl = (cov_run cs h, tc', tl', prev', None).
Proof.
  induction 1 as [|x h Hx _ IH]; intros i prev cs tc tl; cbn [head_loop cov_run fold_left]; [eauto|].
  destruct (Nat.eqb_spec x 0); [easy|]. apply IH.
Qed.

Let step := rest_step D d C L eps.

Lemma rest_cov t : forall s, r_cov (fold_left step t s) = cov_run (r_cov s) t.
Proof.
  induction t as [|x t IH]; intros s; [reflexivity|]. cbn [fold_left]. rewrite IH.
  cbn [cov_run fold_left]. fold (cov_run (cover_visit (r_cov s) x) t). f_equal.
  unfold step, rest_step. destruct (Nat.eqb x 0); reflexivity.
Qed.

(** A run over customers only. *)
Lemma rest_customers r : customers_only r -> forall s,
  let s' := fold_left step r s in
  r_c s' = (if setC then r_c s + demand d r else r_c s) /\
  r_l s' = (if setL then r_l s + path_cost D (r_prev s :: r) else r_l s) /\
  r_prev s' = (if setL then last r (r_prev s) else r_prev s) /\
  r_capf s' = r_capf s /\ r_lenf s' = r_lenf s.
Proof.
  induction 1 as [|x r Hx _ IH]; intros s; cbn [fold_left].
  - repeat split; cbn [last]; rewrite ?path_cost_one, ?demand_nil; destruct setC, setL; lia.
  - specialize (IH (step s x)). cbn zeta in IH. destruct IH as (H1 & H2 & H3 & H4 & H5).
    cbn zeta. rewrite H1, H2, H3, H4, H5. clear H1 H2 H3 H4 H5.
    unfold step, rest_step. fold setC setL.
    destruct (Nat.eqb_spec x 0); [easy|]. cbn [r_c r_l r_prev r_capf r_lenf negb].
    rewrite !andb_false_r, andb_true_r. cbn [andb]. rewrite demand_cons, path_cost_cons2.
    repeat split.
    + destruct setC; lia.
    + destruct setL; [lia|reflexivity].
    + destruct setL; [|reflexivity]. symmetry. apply last_cons.
Qed.

(** A complete route. *)
Lemma rest_route r : customers_only r -> forall s,
  r_c s = 0 -> r_l s = 0 -> (setL = true -> r_prev s = 0%nat) ->
  let s' := fold_left step (r ++ [0%nat]) s in
  r_c s' = 0 /\ r_l s' = 0 /\ (setL = true -> r_prev s' = 0%nat) /\
  r_capf s' = negb (exceeds C eps (demand d r)) && r_capf s /\
  r_lenf s' = negb (exceeds L eps (route_cost D r)) && r_lenf s.
Proof.
  intros Hr s Hc Hl Hp. rewrite fold_left_app.
  destruct (rest_customers r Hr s) as (H1 & H2 & H3 & H4 & H5).
  set (s1 := fold_left step r s) in *. cbn zeta. cbn [fold_left].
  unfold step, rest_step. fold setC setL. cbn [Nat.eqb negb r_c r_l r_prev r_capf r_lenf].
  rewrite ?andb_false_r, ?andb_true_r. rewrite H1, H2, H3, H4, H5, Hc, Hl.
  split; [reflexivity|]. split; [reflexivity|]. split; [now intros ->|].
  split.
  - unfold setC. destruct (truthy C) eqn:E; [|rewrite !exceeds_unset by exact E; reflexivity].
    cbn [andb]. rewrite Z.add_0_l. destruct (exceeds C eps (demand d r)); reflexivity.
  - unfold setL in *. destruct (truthy L) eqn:E; [|rewrite !exceeds_unset by exact E; reflexivity].
    rewrite (Hp eq_refl). cbn [andb]. rewrite Z.add_0_l.
    replace (path_cost D (0%nat :: r) + D (last r 0%nat) 0%nat) with (route_cost D r).
    + destruct (exceeds L eps (route_cost D r)); reflexivity.
    + unfold route_cost. destruct r as [|x r]; [cbn; lia|].
      change (0%nat :: (x :: r) ++ [0%nat]) with ((0%nat :: x :: r) ++ [0%nat]).
      rewrite path_cost_app by easy. cbn [hd]. rewrite path_cost_one.
      replace (last (0%nat :: x :: r) 0%nat) with (last (x :: r) 0%nat) by reflexivity. lia.
Qed.

Lemma rest_routes rs : Forall customers_only rs -> forall s,
  r_c s = 0 -> r_l s = 0 -> (setL = true -> r_prev s = 0%nat) ->
  let s' := fold_left step (flat_map (fun r => r ++ [0%nat]) rs) s in
  r_c s' = 0 /\ r_l s' = 0 /\ (setL = true -> r_prev s' = 0%nat) /\
  (r_capf s' = true <-> cap_ok d C eps rs /\ r_capf s = true) /\
  (r_lenf s' = true <-> len_ok D L eps rs /\ r_lenf s = true).
Proof.
  induction 1 as [|r rs Hr _ IH]; intros s Hc Hl Hp; cbn [flat_map].
  - cbn. repeat split; auto; try tauto; constructor.
  - rewrite fold_left_app. destruct (rest_route r Hr s Hc Hl Hp) as (H1 & H2 & H3 & H4 & H5).
    set (s1 := fold_left step (r ++ [0%nat]) s) in *.
    destruct (IH s1 H1 H2 H3) as (G1 & G2 & G3 & G4 & G5). cbn zeta.
    repeat split; auto.
    + apply G4 in H. destruct H as [Ha Hb]. rewrite H4 in Hb. apply andb_prop in Hb.
      constructor; [|exact Ha]. apply exceeds_within. now destruct (exceeds C eps (demand d r)).
    + apply G4 in H. destruct H as [Ha Hb]. rewrite H4 in Hb. now apply andb_prop in Hb.
    + intros [Ha Hb]. apply G4. inversion_clear Ha. split; [assumption|]. rewrite H4, Hb.
      apply exceeds_within in H. now rewrite H.
    + apply G5 in H. destruct H as [Ha Hb]. rewrite H5 in Hb. apply andb_prop in Hb.
      constructor; [|exact Ha]. apply exceeds_within. now destruct (exceeds L eps (route_cost D r)).
    + apply G5 in H. destruct H as [Ha Hb]. rewrite H5 in Hb. now apply andb_prop in Hb.
    + intros [Ha Hb]. apply G5. inversion_clear Ha. split; [assumption|]. rewrite H5, Hb.
      apply exceeds_within in H. now rewrite H.
Qed.

(** The whole validator on  h 0 (routes) last . *)
Lemma validate_parts N h rs t : (0 < N)%nat -> d 0%nat = 0 ->
  customers_only h -> Forall customers_only rs -> customers_only t ->
  let sol := h ++ 0%nat :: flat_map (fun r => r ++ [0%nat]) rs ++ t in
  Forall (fun n => (n < N)%nat) sol ->
  exists bcov bcap blen, validate_solution_feasibility N sol D d C L eps = Some (bcov, bcap, blen) /\
    (bcov = true <-> Permutation (customers sol) (seq 1 (N - 1))) /\
    (bcap = true <-> cap_ok d C eps (rs ++ [t ++ h])) /\
    (blen = true <-> len_ok D L eps (rs ++ [t ++ h])).
Proof.
  intros HN Hd Hh Hrs Ht sol Hlt.
  unfold validate_solution_feasibility. fold setC setL.
  assert (Hne : sol <> []) by (unfold sol; destruct h; easy).
  destruct sol as [|x0 sol0] eqn:Esol; [easy|]. rewrite <- Esol in *. clear x0 sol0 Esol.
  unfold sol at 1. rewrite head_loop_spec by exact Hh.
  rewrite Nat.add_0_l.
  replace (skipn (length h + 1) sol) with (flat_map (fun r => r ++ [0%nat]) rs ++ t).
  2:{ unfold sol. rewrite skipn_app. rewrite skipn_all2 by lia.
      replace (length h + 1 - length h)%nat with 1%nat by lia. reflexivity. }
  fold step. rewrite fold_left_app.
  match goal with |- context [fold_left step (flat_map _ rs) ?s] => set (s0 := s) end.
  destruct (rest_routes rs Hrs s0 eq_refl eq_refl) as (G1 & G2 & G3 & G4 & G5).
  { unfold s0; cbn [r_prev]. now intros ->. }
  set (s1 := fold_left step (flat_map _ rs) s0) in *.
  destruct (rest_customers t Ht s1) as (F1 & F2 & F3 & F4 & F5).
  assert (Ecov : r_cov (fold_left step t s1) = cov_run cover_init sol).
  { rewrite rest_cov. unfold s1. rewrite rest_cov. unfold s0. cbn [r_cov].
    rewrite <- !cov_run_app. unfold sol. rewrite <- !app_assoc. reflexivity. }
  set (s2 := fold_left step t s1) in *.
  eexists _, _, _. split; [reflexivity|]. split; [|split].
  - rewrite Ecov. destruct (cov_run_spec sol cover_init) as [V1 V2].
    assert (H0 : In 0%nat sol) by (unfold sol; apply in_or_app; right; now left).
    rewrite cov_complete by assumption.
    destruct (Nat.eqb_spec (count_true N (covering (cov_run cover_init sol))) N) as [E|E].
    + rewrite V2. rewrite count_true_all in E. split.
      * intros (_ & Hn & _). split; [exact Hn|]. intros k Hk. specialize (E k Hk).
        apply V1 in E. destruct E as [E|E]; [discriminate|exact E].
      * intros [Hn _]. repeat split; auto.
    + split; [discriminate|]. intros [_ Hall]. exfalso. apply E, count_true_all.
      intros k Hk. apply V1. right. now apply Hall.
  - unfold cap_ok. rewrite Forall_app. fold (cap_ok d C eps rs).
    assert (Hcap : r_capf s2 = true <-> cap_ok d C eps rs).
    { rewrite F4, G4. unfold s0; cbn [r_capf]. tauto. }
    destruct (exceeds C eps _) eqn:E.
    + split; [discriminate|]. intros [_ HF]. inversion_clear HF. apply exceeds_within in H.
      rewrite demand_app in H. unfold setC in *. destruct (truthy C) eqn:EC.
      * rewrite F1, G1 in E. rewrite Hd in E.
        replace (0 + demand d t + (0 + demand d h + 0)) with (demand d t + demand d h) in E by lia.
        congruence.
      * rewrite exceeds_unset in E by exact EC. discriminate.
    + rewrite Hcap. split; [|tauto]. intros Hc. split; [exact Hc|]. constructor; [|constructor].
      apply exceeds_within. rewrite demand_app. unfold setC in *. destruct (truthy C) eqn:EC.
      * rewrite F1, G1, Hd in E. rewrite <- E. f_equal. lia.
      * now apply exceeds_unset.
  - unfold len_ok. rewrite Forall_app. fold (len_ok D L eps rs).
    assert (Hlen : r_lenf s2 = true <-> len_ok D L eps rs).
    { rewrite F5, G5. unfold s0; cbn [r_lenf]. tauto. }
    assert (EC : setL = true -> r_l s2 + (if setL then 0 + path_cost D (last sol 0%nat :: h ++ [0%nat]) else 0)
                 = route_cost D (t ++ h)).
    { intros E. rewrite F2, G2. specialize (G3 E). rewrite E, G3. rewrite !Z.add_0_l.
      unfold route_cost. unfold sol.
      destruct t as [|x t'].
      - rewrite path_cost_one, app_nil_r. cbn [app].
        replace (last (h ++ 0%nat :: flat_map (fun r => r ++ [0%nat]) rs) 0%nat) with 0%nat; [reflexivity|].
        fold (encode rs). change (0%nat :: flat_map (fun r => r ++ [0%nat]) rs) with (encode rs).
        rewrite encode_cyclic, app_assoc, last_last. reflexivity.
      - destruct (exists_last (l := x :: t')) as [q [y Ey]]; [easy|]. rewrite Ey.
        match goal with |- context [last ?l 0%nat] => assert (El : last l 0%nat = y) end.
        { rewrite (app_comm_cons _ _ 0%nat), !app_assoc, last_last. reflexivity. }
        rewrite El, <- !app_assoc. cbn [app].
        symmetry. apply (path_cost_mid D (0%nat :: q)). }
    destruct (exceeds L eps _) eqn:E.
    + split; [discriminate|]. intros [_ HF]. inversion_clear HF. apply exceeds_within in H.
      destruct setL eqn:ES.
      * rewrite (EC eq_refl) in E. congruence.
      * rewrite exceeds_unset in E; [discriminate|]. unfold setL in ES. now destruct (truthy L).
    + rewrite Hlen. split; [|tauto]. intros Hc. split; [exact Hc|]. constructor; [|constructor].
      apply exceeds_within. destruct setL eqn:ES.
      * now rewrite <- (EC eq_refl).
      * apply exceeds_unset. unfold setL in ES. now destruct (truthy L).
Qed.

Lemma validate_no_depot N sol : (0 < N)%nat -> sol <> [] -> ~ In 0%nat sol ->
  exists bcap blen, validate_solution_feasibility N sol D d C L eps = Some (false, bcap, blen).
Proof.
  intros HN Hne H0. unfold validate_solution_feasibility. fold setC setL.
  destruct sol as [|x0 sol0] eqn:Esol; [easy|]. rewrite <- Esol in *.
  assert (Hc : customers_only sol).
  { apply Forall_forall. intros k Hk ->. now apply H0. }
  destruct (head_loop_none sol Hc 0 (last sol 0%nat) cover_init 0 0) as (tc & tl & pv & E).
  rewrite E. fold step. rewrite rest_cov. cbn [r_cov].
  set (cv := cov_run _ sol).
  assert (Hz : covering cv 0%nat = false).
  { unfold cv. destruct (covering _ 0%nat) eqn:Ec; [|reflexivity].
    apply cov_run_spec in Ec. destruct Ec as [Ec|Ec]; [|now apply H0 in Ec].
    apply cov_run_spec in Ec. destruct Ec as [Ec|Ec]; [easy|now apply H0 in Ec]. }
  destruct (Nat.eqb_spec (count_true N (covering cv)) N) as [Et|Et]; [|eauto].
  rewrite count_true_all in Et. rewrite (Et 0%nat HN) in Hz. discriminate.
Qed.
End V.

(** ** Rotations *)
Lemma cyclic_app rs1 rs2 : cyclic (rs1 ++ rs2) = cyclic rs1 ++ cyclic rs2.
Proof. apply flat_map_app. Qed.

Lemma customers_no_zero r l : customers_only r -> forall a b, r ++ 0%nat :: l = a ++ 0%nat :: b ->
  (length r <= length a)%nat.
Proof.
  induction 1 as [|x r Hx _ IH]; intros a b E; [cbn; lia|].
  destruct a as [|y a]; cbn in E; injection E as -> E; [easy|]. cbn. specialize (IH a b E). lia.
Qed.

(** A cut of the cyclic encoding in front of a depot is a cut between routes. *)
Lemma cyclic_cut rs : Forall customers_only rs -> forall a b, cyclic rs = a ++ 0%nat :: b ->
  exists rs1 rs2, rs = rs1 ++ rs2 /\ a = cyclic rs1 /\ 0%nat :: b = cyclic rs2.
Proof.
  induction 1 as [|r rs Hr Hrs IH]; intros a b E; [now destruct a|].
  unfold cyclic in E. cbn [flat_map app] in E. fold (cyclic rs) in E.
  destruct a as [|x a].
  - exists [], (r :: rs). split; [reflexivity|]. split; [reflexivity|].
    cbn in E. unfold cyclic. cbn. symmetry. exact E.
  - cbn in E. injection E as <- E.
    assert (exists a', a = r ++ a' /\ cyclic rs = a' ++ 0%nat :: b) as (a' & -> & E').
    { clear IH Hrs. revert a E. induction Hr as [|y r Hy _ IHr]; intros a E; cbn in E.
      - exists a. split; [reflexivity|exact E].
      - destruct a as [|z a]; cbn in E; injection E as E1 E2; [easy|]. subst z.
        destruct (IHr a E2) as (a' & -> & E3). exists a'. split; [reflexivity|exact E3]. }
    destruct (IH a' b E') as (rs1 & rs2 & -> & -> & E2).
    exists (r :: rs1), rs2. split; [reflexivity|]. split; [reflexivity|exact E2].
Qed.

(** Every node list containing the depot can be cut at its first depot into the parts
    used by [validate_parts]. *)
Lemma split_parts (l : list nat) :
  exists rs t, Forall customers_only rs /\ customers_only t /\
    l = flat_map (fun r => r ++ [0%nat]) rs ++ t.
Proof.
  remember (length l) as n eqn:Hn. revert l Hn.
  induction n as [n IH] using lt_wf_ind. intros l ->.
  destruct (split_at_zero l) as [H|(r & t & H & E)].
  - exists [], l. repeat split; [constructor|exact H].
  - destruct (IH (length t)) with (l := t) as (rs & u & Hrs & Hu & Eu);
      [subst; rewrite app_length; cbn; lia|easy|].
    exists (r :: rs), u. split; [now constructor|]. split; [exact Hu|].
    cbn [flat_map]. rewrite <- !app_assoc. rewrite <- Eu. exact E.
Qed.

Lemma cyclic_snoc rs u : cyclic (rs ++ [u]) = 0%nat :: flat_map (fun r => r ++ [0%nat]) rs ++ u.
Proof.
  rewrite cyclic_app. unfold cyclic at 2. cbn [flat_map]. rewrite app_nil_r.
  change (0%nat :: flat_map (fun r => r ++ [0%nat]) rs ++ u) with (encode rs ++ u).
  rewrite encode_cyclic, <- app_assoc. reflexivity.
Qed.

Lemma cyclic_inj rs1 : Forall customers_only rs1 -> forall rs2, Forall customers_only rs2 ->
  cyclic rs1 = cyclic rs2 -> rs1 = rs2.
Proof.
  intros H1 rs2 H2 E.
  assert (HE : encode (rs1) = encode rs2) by now rewrite !encode_cyclic, E.
  clear E. revert rs2 H2 HE. induction H1 as [|r rs1 Hr _ IH]; intros rs2 H2 HE.
  - destruct H2 as [|r2 rs2 Hr2 H2]; [reflexivity|]. rewrite encode_cons in HE.
    unfold encode in HE. destruct r2; discriminate.
  - destruct H2 as [|r2 rs2 Hr2 H2].
    + rewrite encode_cons in HE. unfold encode in HE. destruct r; discriminate.
    + rewrite !encode_cons in HE. injection HE as HE.
      assert (r = r2) as ->.
      { unfold encode in HE. clear IH H2. revert r2 Hr2 HE. induction Hr as [|x r Hx _ IHr]; intros r2 Hr2 HE.
        - destruct Hr2; [reflexivity|]. cbn in HE. injection HE as HE _. congruence.
        - destruct Hr2; cbn in HE; injection HE as HE1 HE2; [congruence|]. subst. f_equal. eauto. }
      apply app_inv_head in HE. f_equal. now apply IH.
Qed.

(** Any tour through the depot encodes some routes, up to rotation. *)
Lemma rotation_exists sol : In 0%nat sol ->
  exists rs a b, rs <> [] /\ Forall customers_only rs /\ cyclic rs = a ++ b /\ sol = b ++ a.
Proof.
  intros H0. destruct (split_at_zero sol) as [H|(h & t & Hh & ->)].
  { unfold customers_only in H. rewrite Forall_forall in H. now apply H in H0. }
  destruct (split_parts t) as (rs & u & Hrs & Hu & ->).
  exists (rs ++ [u ++ h]), (0%nat :: flat_map (fun r => r ++ [0%nat]) rs ++ u), h.
  split; [now destruct rs|]. split.
  - apply Forall_app. split; [exact Hrs|]. constructor; [|constructor]. now apply Forall_app.
  - split; [|reflexivity]. rewrite cyclic_snoc. cbn. now rewrite <- app_assoc.
Qed.

(** Verdicts for any rotation of the encoding of [rs]. *)
Lemma validate_correct N D d C L eps rs a b :
  (0 < N)%nat -> d 0%nat = 0 -> rs <> [] -> Forall customers_only rs ->
  cyclic rs = a ++ b -> Forall (fun n => (n < N)%nat) (b ++ a) ->
  exists bcov bcap blen,
    validate_solution_feasibility N (b ++ a) D d C L eps = Some (bcov, bcap, blen) /\
    (bcov = true <-> covers N rs) /\
    (bcap = true <-> cap_ok d C eps rs) /\
    (blen = true <-> len_ok D L eps rs).
Proof.
  intros HN Hd Hne Hrs E Hlt.
  destruct (split_at_zero (b ++ a)) as [H|(h & t & Hh & Et)].
  { exfalso. destruct rs as [|r rs]; [easy|]. unfold cyclic in E; cbn in E.
    assert (Hin : In 0%nat (a ++ b)) by (rewrite <- E; now left).
    unfold customers_only in H. rewrite Forall_forall in H. specialize (H 0%nat). apply H; [|reflexivity].
    apply in_app_iff in Hin. apply in_app_iff. tauto. }
  destruct (split_parts t) as (rs0 & u & Hrs0 & Hu & ->).
  destruct (validate_parts D d C L eps N h rs0 u HN Hd Hh Hrs0 Hu) as (bcov & bcap & blen & EV & V1 & V2 & V3).
  { rewrite <- Et. exact Hlt. }
  (* the routes seen are a permutation of rs *)
  assert (HP : Permutation rs (rs0 ++ [u ++ h])).
  { assert (Hr' : Forall customers_only (rs0 ++ [u ++ h])).
    { apply Forall_app. split; [exact Hrs0|]. constructor; [|constructor]. now apply Forall_app. }
    assert (Ecyc : cyclic (rs0 ++ [u ++ h]) = (0%nat :: flat_map (fun r => r ++ [0%nat]) rs0 ++ u) ++ h).
    { rewrite cyclic_snoc. cbn. now rewrite <- app_assoc. }
    (* compare b ++ a with h ++ (0 :: rest) *)
    remember (0%nat :: flat_map (fun r => r ++ [0%nat]) rs0 ++ u) as w eqn:Ew.
    destruct (Nat.le_gt_cases (length h) (length b)) as [Hle|Hgt].
    - (* h is a prefix of b *)
      assert (exists q, b = h ++ q /\ q ++ a = w) as (q & -> & Eq).
      { symmetry in Et. destruct (app_prefix h w b a Et Hle) as (q & -> & ->). exists q. auto. }
      destruct q as [|z q].
      + (* b = h, a = w *)
        cbn in Eq. subst a. rewrite app_nil_r in *.
        rewrite <- E in Ecyc. apply cyclic_inj in Ecyc; [|assumption|assumption]. now rewrite Ecyc.
      + (* a ++ h ++ 0 :: q = cyclic rs *)
        assert (z = 0%nat) as -> by (rewrite Ew in Eq; cbn in Eq; now injection Eq).
        rewrite app_assoc in E. destruct (cyclic_cut rs Hrs _ _ E) as (rs1 & rs2 & -> & E1 & E2).
        assert (rs0 ++ [u ++ h] = rs2 ++ rs1) as ->; [|apply Permutation_app_comm].
        apply Forall_app in Hrs. destruct Hrs as [Hrs1 Hrs2].
        apply cyclic_inj; [assumption|now apply Forall_app|].
        rewrite Ecyc, cyclic_app, <- E1, <- E2, <- Eq, <- app_assoc. reflexivity.
    - (* b is a proper prefix of h: then a begins with a non-depot or b = [] *)
      assert (exists q, h = b ++ q /\ a = q ++ w) as (q & -> & ->).
      { destruct (app_prefix b a h w Et) as (q & -> & ->); [lia|]. exists q. auto. }
      (* cyclic rs starts with 0 but q is customers only *)
      destruct q as [|z q]; [rewrite app_nil_r in Hgt; lia|].
      exfalso. destruct rs as [|r rs]; [easy|]. unfold cyclic in E; cbn in E. injection E as E _.
      apply Forall_app in Hh. destruct Hh as [_ Hh]. inversion Hh. congruence. }
  exists bcov, bcap, blen. split; [rewrite <- EV; f_equal; exact Et|].
  assert (HPc : Permutation (customers (b ++ a)) (concat rs)).
  { rewrite <- (customers_encode rs Hrs), encode_cyclic, E, !customers_app. cbn.
    rewrite app_nil_r. apply Permutation_app_comm. }
  split; [|split].
  - rewrite V1. unfold covers. rewrite <- Et. rewrite HPc. reflexivity.
  - rewrite V2. unfold cap_ok. split; intros HF; eapply Forall_perm; [symmetry; exact HP|exact HF|exact HP|exact HF].
  - rewrite V3. unfold len_ok. split; intros HF; eapply Forall_perm; [symmetry; exact HP|exact HF|exact HP|exact HF].
Qed.
