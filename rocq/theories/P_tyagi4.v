(** * Tyagi's heuristic: theorems *)
From Verif Require Import Spec Spec_ls Spec_inter Spec_savings Spec_nn Spec_rfcs Spec_tyagi PyBase M_util M_psavings M_intra M_nn M_tyagi M_rfcs P_base P_intra2 P_util P_3optstar P_driver P_nn3 P_rfcs3 P_tyagi P_tyagi2 P_tyagi3.
Require Import ZifyBool ZifyNat Lia.

Lemma wrap_all rs : Forall (fun r => r <> []) rs -> Forall customers_only rs -> sol2routes (encode rs) = map wrap rs.
Proof.
  intros Hne Hc. rewrite sol2routes_encode by exact Hc. f_equal. clear - Hne. induction Hne as [|r l Hr _ IH]; [reflexivity|]. cbn. destruct r; [easy|]. cbn. now f_equal.
Qed.

Lemma single_spec N d c : 0 < c -> may_have_single N d c = true <-> single_possible N d c.
Proof.
  intros Hc. unfold may_have_single, single_possible.
  assert (Et : load d [seq 0 N] = sumZ (map d (range 0 N))) by (unfold load, demand, range; cbn; rewrite Nat.sub_0_r; lia). rewrite Et. set (tot := sumZ _). clearbody tot. clear Et.
  set (K0 := - (- tot / c)). assert (HK0 : (K0 - 1) * c < tot <= K0 * c).
  { unfold K0. assert (H1 := Z.div_mod (- tot) c ltac:(lia)). assert (H2 := Z.mod_pos_bound (- tot) c Hc). nia. }
  rewrite forallb_forall. split.
  - intros H. exists K0. split; [exact HK0|]. intros n Hn. specialize (H n ltac:(unfold range; apply in_seq; lia)). lia.
  - intros (K & HK & H) n Hn. unfold range in Hn. apply in_seq in Hn. assert (E : K = K0) by nia. subst K. specialize (H n ltac:(lia)). lia.
Qed.

Lemma max_lt N (f : nat -> Z) b x : 2 * x < fold_right Z.max b (map f (range 0 N)) <-> 2 * x < b \/ exists i, (i < N)%nat /\ 2 * x < f i.
Proof.
  assert (H : forall l, 2 * x < fold_right Z.max b (map f l) <-> 2 * x < b \/ exists i, In i l /\ 2 * x < f i).
  { induction l as [|y l IH]; cbn [map fold_right]; [split; [auto|intros [H|(i & [] & _)]; exact H]|].
    rewrite Z.max_lt_iff, IH. split.
    - intros [H|[H|(i & Hi & H)]]; [right; exists y; split; [now left|exact H]|now left|right; exists i; split; [now right|exact H]].
    - intros [H|(i & [<-|Hi] & H)]; [now right; left|now left|right; right; eauto]. }
  rewrite H. split; (intros [A|(i & Hi & A)]; [now left|right; exists i; split; [|exact A]]); unfold range in *; [apply in_seq in Hi; lia|apply in_seq; lia].
Qed.

Lemma candidates_spec N D d c only_large x : (1 <= N)%nat -> In x (ty_candidates N D d only_large c) <-> single_candidate N D d c only_large x.
Proof.
  intros HN. unfold ty_candidates, single_candidate. assert (Hr : In x (range 1 N) <-> (1 <= x < N)%nat) by (unfold range; rewrite in_seq; lia).
  destruct only_large; [|rewrite Hr; intuition congruence]. rewrite filter_In, Hr, andb_true_iff, !Z.ltb_lt, max_lt. split.
  - intros (H1 & H2 & H3). split; [exact H1|]. intros _. split; [exact H2|]. destruct H3 as [H3|H3]; [exists 0%nat; split; [lia|exact H3]|exact H3].
  - intros (H1 & H2). destruct (H2 eq_refl) as [H3 H4]. auto.
Qed.

Lemma grouping_unfold ceps seps N D d c L only_large try_all g fuel first pts : 0 < c ->
  ty_group ceps seps N D d (Some c) L try_all fuel true [] = Some (Some (encode first), pts) ->
  ty_grouping ceps seps N D d (Some c) L only_large try_all g fuel =
  if may_have_single N d c || negb (Nat.eqb (length (filter (fun r => Nat.eqb (length r) 3) (sol2routes (encode first)))) 0)
  then ty_try ceps seps N D d (Some c) L try_all g fuel c (count_occ Nat.eq_dec (encode first) 0%nat - 1) (ty_candidates N D d only_large c)
         (utilisation_of g (encode first) D d c (length (sol2routes (encode first))) (length (sol2routes (encode first)))) [encode first]
  else Some (Some [encode first]).
Proof.
  intros Hc E. unfold ty_grouping. rewrite E. replace (is_set (Some c)) with true; [reflexivity|]. unfold is_set, truthy. destruct (Z.eqb_spec c 0); [lia|reflexivity].
Qed.

Section Theorems.
Variables ceps seps : Z.
Variable N : nat.
Variable D : matrix.
Variable d : demands.
Variables C L : limit.
Variables only_large try_all : bool.
Variable g : grouping.
Notation grp ends fb := (grouped N D d C L ceps seps fb ends try_all).
Notation group fuel ends fb := (ty_group ceps seps N D d C L try_all fuel ends fb).
Notation feas := (feasible D d C L ceps seps).
Notation srv := (serves N D d C L ceps seps).
Notation grouping_of fuel := (ty_grouping ceps seps N D d C L only_large try_all g fuel).

Lemma first_nonempty (HN : (2 <= N)%nat) rs : part ceps seps N D d C L [] rs -> (1 <= length rs)%nat.
Proof.
  intros H. apply (part_all _ _ _ _ _ _ _ HN) in H || apply part_all in H. destruct rs as [|r rs]; [|cbn; lia]. exfalso. apply Permutation_length in H. rewrite seq_length in H. cbn in H. lia.
Qed.

Lemma singles_test rs : Forall (fun r => r <> []) rs -> Forall customers_only rs ->
  negb (Nat.eqb (length (filter (fun r => Nat.eqb (length r) 3) (sol2routes (encode rs)))) 0) = true <-> exists x, In [x] rs.
Proof.
  intros Hne Hc. rewrite wrap_all by assumption. rewrite negb_true_iff, Nat.eqb_neq. split.
  - intros H. destruct (filter _ _) as [|w t] eqn:E; [easy|]. assert (Hw : In w (filter (fun r => Nat.eqb (length r) 3) (map wrap rs))) by (rewrite E; now left).
    apply filter_In in Hw as [Hw Hl]. apply in_map_iff in Hw as (r & <- & Hr). unfold wrap in Hl. cbn [length] in Hl. rewrite app_length in Hl. cbn in Hl.
    destruct r as [|x [|y r]]; cbn in Hl; try lia. exists x. exact Hr.
  - intros (x & Hx) E. assert (Hi : In (wrap [x]) (filter (fun r => Nat.eqb (length r) 3) (map wrap rs))) by (apply filter_In; split; [now apply in_map|reflexivity]).
    destruct (filter _ _); [destruct Hi|discriminate].
Qed.

Notation chosen_spec c := (chosen_grouping N D d c only_large g).
Lemma grouping_chosen c : C = Some c -> 0 < c -> d 0%nat = 0 -> (3 <= N)%nat -> self_first N D -> served_alone N D d C L ceps seps ->
  exists first gr chosen pts fuel0,
    grp true [] first /\ (forall x, (1 <= x < N)%nat -> grp false [x] (gr x)) /\ chosen_spec c first gr chosen /\ srv chosen /\
    Forall (ty_passed N D d C L ceps seps [] true try_all ty_start) pts /\
    forall fuel, (fuel0 <= fuel)%nat -> group fuel true [] = Some (Some (encode first), pts) /\
      exists sols, grouping_of fuel = Some (Some (encode chosen :: sols)) /\
        Forall (fun s => exists t, s = encode t /\ srv t /\ (length t <= length first)%nat) (encode chosen :: sols).
Proof.
  intros EC Hc d0 HN Hself Ha.
  destruct (group_run ceps seps N D d C L try_all ltac:(lia) Hself true []) as (first & pts & Hg & Hp & Hpts & Hrun).
  assert (Hex : forall x, exists rs, grp false [x] rs /\ part ceps seps N D d C L [x] rs /\ exists pts, forall fuel, (S (ty_mu N ty_start) <= fuel)%nat -> group fuel false [x] = Some (match rs with [] => None | _ => Some (encode rs) end, pts)).
  { intros x. destruct (group_run ceps seps N D d C L try_all ltac:(lia) Hself false [x]) as (rs & pts' & H1 & H2 & _ & H4). exists rs. eauto. }
  assert (Hch : exists gr : nat -> list (list nat), forall x, (1 <= x < N)%nat -> grp false [x] (gr x) /\ part ceps seps N D d C L [x] (gr x) /\ exists pts, forall fuel, (S (ty_mu N ty_start) <= fuel)%nat -> group fuel false [x] = Some (match gr x with [] => None | _ => Some (encode (gr x)) end, pts)).
  { exists (fun x => match group (S (ty_mu N ty_start)) false [x] with Some (Some s, _) => map (fun w => removelast (tl w)) (sol2routes s) | _ => [] end).
    intros x Hx. destruct (Hex x) as (rs & H1 & H2 & pts' & H3). assert (E := H3 _ (le_n _)). rewrite E.
    assert (Ers : match (match rs with [] => None | _ => Some (encode rs) end) with Some s => map (fun w => removelast (tl w)) (sol2routes s) | None => [] end = rs).
    { destruct rs as [|r0 t0] eqn:Er; [reflexivity|]. rewrite <- Er in *. rewrite wrap_all; [|apply H2|eapply (part_customers ceps seps N D d C L ltac:(lia)); exact H2].
      rewrite map_map. clear. induction rs as [|r rs IH]; [reflexivity|]. cbn [map]. f_equal; [|exact IH]. unfold wrap. cbn [tl]. apply removelast_last. }
    replace (match Some (match rs with [] => None | _ => Some (encode rs) end, pts') with Some (Some s, _) => map (fun w => removelast (tl w)) (sol2routes s) | _ => [] end) with rs.
    eauto. }
  destruct Hch as [gr Hgr].
  assert (Hf1 := first_nonempty ltac:(lia) first Hp).
  assert (Hcust := part_customers ceps seps N D d C L ltac:(lia) _ _ Hp).
  assert (HneF : Forall (fun r => r <> []) first) by apply Hp.
  assert (Hrun1 : forall fuel, (S (ty_mu N ty_start) <= fuel)%nat -> group fuel true [] = Some (Some (encode first), pts)).
  { intros fuel Hf. rewrite (Hrun fuel Hf). destruct first; [cbn in Hf1; lia|reflexivity]. }
  assert (Hset : is_set C = true) by (rewrite EC; unfold is_set, truthy; destruct (Z.eqb_spec c 0); [lia|reflexivity]).
  assert (Hfs : exists t, encode first = encode t /\ srv t /\ (length t <= length first)%nat).
  { exists first. split; [reflexivity|]. split; [|lia]. apply (part_serves ceps seps N D d C L ltac:(lia)); assumption. }
  assert (Hlens : length (sol2routes (encode first)) = length first) by (rewrite wrap_all, map_length by assumption; reflexivity).
  set (test := may_have_single N d c || negb (Nat.eqb (length (filter (fun r => Nat.eqb (length r) 3) (sol2routes (encode first)))) 0)).
  assert (Htest : test = true <-> (single_possible N d c \/ exists x, In [x] first)).
  { unfold test. rewrite orb_true_iff, single_spec, singles_test by assumption. reflexivity. }
  assert (Hgu : forall fuel, (S (ty_mu N ty_start) <= fuel)%nat -> grouping_of fuel = if test then ty_try ceps seps N D d C L try_all g fuel c (count_occ Nat.eq_dec (encode first) 0%nat - 1) (ty_candidates N D d only_large c)
         (utilisation_of g (encode first) D d c (length (sol2routes (encode first))) (length (sol2routes (encode first)))) [encode first] else Some (Some [encode first])).
  { intros fuel Hf. unfold test. assert (E := Hrun1 fuel Hf). rewrite EC in *. exact (grouping_unfold ceps seps N D d c L only_large try_all g fuel first pts Hc E). }
  clearbody test. destruct test eqn:Et.
  - (* reconsidered *)
    assert (Hgr1 : forall fuel, (S (ty_mu N ty_start) <= fuel)%nat -> forall x, (1 <= x < N)%nat -> part ceps seps N D d C L [x] (gr x) /\ exists pts, group fuel false [x] = Some (Some (encode (gr x)), pts)).
    { intros fuel Hf x Hx. destruct (Hgr x Hx) as (_ & H2 & pts' & H3). split; [exact H2|]. exists pts'. rewrite (H3 fuel Hf).
      destruct (gr x) as [|r t] eqn:E; [|reflexivity]. exfalso. destruct H2 as [HP _]. cbn in HP.
      assert (Hy : exists y, (1 <= y < N)%nat /\ y <> x) by (destruct (Nat.eq_dec x 1); [exists 2%nat|exists 1%nat]; lia). destruct Hy as (y & Hy & Hne).
      assert (Hi : In y []); [|destruct Hi]. eapply Permutation_in; [symmetry; exact HP|]. apply filter_In. split; [apply in_seq; lia|]. apply allowed_spec. cbn. intuition congruence. }
    assert (Hcr : forall x, In x ([] ++ ty_candidates N D d only_large c) -> (1 <= x < N)%nat).
    { intros x Hx. cbn in Hx. apply candidates_spec in Hx; [|lia]. apply Hx. }
    assert (Hch0 : choice D d g c gr first [] (first, length first) first) by (split; [left; split; reflexivity|easy]).
    assert (Hall0 : Forall (fun s => exists t, s = encode t /\ srv t /\ (length t <= length first)%nat) [encode first]) by (constructor; [exact Hfs|constructor]).
    assert (Hspec : forall fuel, (S (ty_mu N ty_start) <= fuel)%nat -> exists r' rs' sols',
       grouping_of fuel = Some (Some (encode rs' :: sols')) /\ choice D d g c gr first (ty_candidates N D d only_large c) r' rs' /\
       Forall (fun s => exists t, s = encode t /\ srv t /\ (length t <= length first)%nat) (encode rs' :: sols')).
    { intros fuel Hf. rewrite (Hgu fuel Hf); cbv iota; rewrite Hlens, count_routes by exact Hcust.
      exact (ty_try_spec ceps seps N D d C L try_all g ltac:(lia) c Hc d0 Ha HN fuel Hf gr (Hgr1 fuel Hf) first Hp Hf1 _ [] _ _ [] Hcr Hch0 Hall0). }
    destruct (Hspec _ (le_n _)) as (r' & chosen & sols' & E0 & Hcho & Hall).
    exists first, gr, chosen, pts, (S (ty_mu N ty_start)). split; [exact Hg|]. split; [intros x Hx; apply Hgr; exact Hx|]. split.
    { split; [intros H; exfalso; apply H; apply Htest; reflexivity|]. intros _. destruct Hcho as [Hc1 Hc2].
      assert (Hadm : forall x, single_candidate N D d c only_large x /\ (S (length (gr x)) <= length first)%nat <-> In x (ty_candidates N D d only_large c) /\ considered gr first x).
      { intros x. rewrite candidates_spec by lia. reflexivity. }
      destruct Hc1 as [(-> & ->)|(x & Hx & Hcx & -> & -> & Hb)].
      - left. split; [reflexivity|]. intros x Hx. apply Hadm in Hx as [H1 H2]. exact (Hc2 x H1 H2).
      - right. exists x. split; [apply Hadm; now split|]. split; [reflexivity|]. split; [exact Hb|]. intros z Hz. apply Hadm in Hz as [H1 H2]. exact (Hc2 z H1 H2). }
    split.
    { destruct Hcho as [[(_ & ->)|(x & Hx & _ & _ & -> & _)] _]; [apply (part_serves ceps seps N D d C L ltac:(lia)); assumption|].
      apply (part_one_serves ceps seps N D d C L ltac:(lia)); [exact Ha|apply Hcr; exact Hx|apply Hgr; apply Hcr; exact Hx]. }
    split; [exact Hpts|]. intros fuel Hf. split; [now apply Hrun1|]. exists sols'. split; [|exact Hall].
    (* the same for more fuel *)
    rewrite <- E0. rewrite (Hgu _ Hf), (Hgu _ (le_n _)); cbv iota. clear - Hgr Hf HN.
    assert (Hx : forall x, (1 <= x < N)%nat -> group fuel false [x] = group (S (ty_mu N ty_start)) false [x]).
    { intros x Hx. destruct (Hgr x Hx) as (_ & _ & pts' & H). rewrite (H _ Hf), (H _ (le_n _)). reflexivity. }
    assert (Hin : forall x, In x (ty_candidates N D d only_large c) -> (1 <= x < N)%nat) by (intros x H; apply candidates_spec in H; [apply H|lia]).
    generalize (utilisation_of g (encode first) D d c (length (sol2routes (encode first))) (length (sol2routes (encode first)))). generalize [encode first].
    revert Hin. generalize (ty_candidates N D d only_large c) as cs. generalize (count_occ Nat.eq_dec (encode first) 0 - 1)%nat as bK.
    intros bK cs. induction cs as [|y cs IH]; intros Hin l u; [reflexivity|]. cbn [ty_try]. rewrite Hx by (apply Hin; now left).
    destruct (group _ false [y]) as [[[s|] p]|]; [|reflexivity|reflexivity].
    assert (Hin' : forall x, In x cs -> (1 <= x < N)%nat) by (intros x H; apply Hin; now right).
    destruct (_ <? _)%nat; [apply IH; exact Hin'|]. destruct (util_gt _ _); apply IH; exact Hin'.
  - exists first, gr, first, pts, (S (ty_mu N ty_start)). split; [exact Hg|]. split; [intros x Hx; apply Hgr; exact Hx|]. split.
    { split; [reflexivity|]. intros H. apply Htest in H. discriminate. }
    split; [apply (part_serves ceps seps N D d C L ltac:(lia)); assumption|].
    split; [exact Hpts|]. intros fuel Hf. split; [now apply Hrun1|]. exists []. split; [|constructor; [exact Hfs|constructor]].
    rewrite (Hgu fuel Hf). reflexivity.
Qed.

(** Without a capacity there is no choice. *)
Lemma grouping_plain : is_set C = false -> (2 <= N)%nat -> self_first N D -> served_alone N D d C L ceps seps ->
  exists first pts fuel0, grp true [] first /\ srv first /\ Forall (ty_passed N D d C L ceps seps [] true try_all ty_start) pts /\
    forall fuel, (fuel0 <= fuel)%nat -> group fuel true [] = Some (Some (encode first), pts) /\ grouping_of fuel = Some (Some [encode first]).
Proof.
  intros Hset HN Hself Ha. destruct (group_run ceps seps N D d C L try_all HN Hself true []) as (first & pts & Hg & Hp & Hpts & Hrun).
  assert (Hf1 := first_nonempty HN first Hp). exists first, pts, (S (ty_mu N ty_start)). split; [exact Hg|]. split; [now apply part_serves|]. split; [exact Hpts|].
  intros fuel Hf. assert (E : group fuel true [] = Some (Some (encode first), pts)) by (rewrite (Hrun fuel Hf); destruct first; [cbn in Hf1; lia|reflexivity]).
  split; [exact E|]. unfold ty_grouping. rewrite E, Hset. reflexivity.
Qed.

(** The TSP phase. *)
Lemma tsp_phase f rs : solver N D f -> srv rs -> (2 <= N)%nat ->
  exists rs', routes2sol (map (fun r => Some (fst (f (removelast r)))) (sol2routes (encode rs))) = Some (encode rs') /\
    Forall2 (fun r r' => fst (f (0%nat :: r)) = wrap r' /\ Permutation r' r) rs rs' /\
    (shortens N D f \/ ~ limit_set L -> srv rs').
Proof.
  intros Hf (Hcov & Hne & Hfe) HN.
  assert (Hc : forall r, In r rs -> forall j, In j r -> (1 <= j < N)%nat).
  { intros r Hr j Hj. assert (H : In j (seq 1 (N - 1))) by (eapply Permutation_in; [exact Hcov|]; apply in_concat; eauto). apply in_seq in H. lia. }
  assert (Hnd : NoDup (concat rs)) by (eapply Permutation_NoDup; [symmetry; exact Hcov|apply seq_NoDup]).
  assert (Hcust : Forall customers_only rs).
  { apply Forall_forall. intros r Hr. apply Forall_forall. intros j Hj. specialize (Hc r Hr j Hj). lia. }
  rewrite wrap_all by assumption. rewrite map_map.
  assert (Hex : exists rs', Forall2 (fun r r' => fst (f (0%nat :: r)) = wrap r' /\ Permutation r' r /\ ((shortens N D f -> route_cost D r' <= route_cost D r))) rs rs').
  { clear Hcov Hfe. induction rs as [|r t IH]; [exists []; constructor|]. inversion Hne as [|? ? Hr0 Ht0]; subst. cbn [concat] in Hnd.
    assert (Hndr : NoDup r) by ((clear - Hnd; induction r as [|x r IHr]; [constructor|]; inversion Hnd; subst; constructor; [intros Hi; apply H1; apply in_or_app; now left|auto])).
    assert (Hndt : NoDup (concat t)) by (clear - Hnd; induction r as [|x r IHr]; [exact Hnd|]; inversion Hnd; subst; auto).
    destruct IH as [t' Ht']; [exact Ht0|intros q Hq; apply Hc; now right|exact Hndt|inversion Hcust; assumption|].
    assert (Hrc : forall j, In j r -> (1 <= j < N)%nat) by (apply Hc; now left).
    destruct (Hf r Hr0 Hndr Hrc) as (r' & E & HP). exists (r' :: t'). constructor; [|exact Ht']. rewrite E. split; [reflexivity|]. split; [exact HP|].
    intros Hsh. destruct (Hsh r Hr0 Hndr Hrc) as (r2 & E2 & _ & Hle). rewrite E in E2. injection E2 as E2 _. apply app_inj_tail in E2 as [-> _]. exact Hle. }
  destruct Hex as [rs' HF]. exists rs'.
  assert (HP : Permutation (concat rs') (concat rs)).
  { clear - HF. induction HF as [|r r' t t' (_ & H & _) _ IH]; [constructor|]. cbn. now apply Permutation_app. }
  assert (Hne' : Forall (fun r => r <> []) rs').
  { clear - HF Hne. induction HF as [|r r' t t' (_ & H & _) _ IH]; [constructor|]. inversion Hne; subst. constructor; [|auto]. intros ->. apply Permutation_nil in H. contradiction. }
  assert (Hcust' : Forall customers_only rs').
  { clear - HF Hcust. induction HF as [|r r' t t' (_ & H & _) _ IH]; [constructor|]. inversion Hcust; subst. constructor; [|auto]. unfold customers_only in *. rewrite Forall_forall in *. intros x Hx. apply H2. eapply Permutation_in; eauto. }
  split; [|split].
  - assert (E : map (fun r => Some (fst (f (removelast (wrap r))))) rs = map (fun r => Some (wrap r)) rs').
    { clear - HF. induction HF as [|r r' t t' (H & _ & _) _ IH]; [reflexivity|]. cbn [map]. f_equal; [|exact IH]. f_equal. unfold wrap at 1. rewrite app_comm_cons, removelast_last. exact H. }
    rewrite E. apply routes2sol_wrap; [|exact Hcust'|exact Hne'].
    intros ->. inversion HF; subst. apply Permutation_length in Hcov. rewrite seq_length in Hcov. cbn in Hcov. lia.
  - clear - HF. induction HF as [|r r' t t' (H1 & H2 & _) _ IH]; constructor; auto.
  - intros Hsh. split; [unfold covers; now rewrite HP|]. split; [exact Hne'|]. clear - HF Hfe Hsh. induction HF as [|r r' t t' (_ & H & Hs) _ IH]; [constructor|]. inversion Hfe as [|? ? [F1 F2] Ft]; subst. constructor; [|auto].
    split; [now rewrite (demand_perm d _ _ H)|]. destruct Hsh as [Hsh|Hsh].
    + specialize (Hs Hsh). clear - F2 Hs. unfold within in *. destruct L as [l|]; [intros Hl; specialize (F2 Hl); lia|exact I].
    + clear - Hsh. unfold within, limit_set in *. destruct L as [l|]; [intros Hl; contradiction|exact I].
Qed.

Lemma served (f : tsp) : d 0%nat = 0 -> (forall c, C = Some c -> 0 <= c) -> ((3 <= N)%nat \/ (2 <= N)%nat /\ ~ limit_set C) -> self_first N D -> served_alone N D d C L ceps seps ->
  solver N D f -> (limit_set L -> shortens N D f) ->
  exists rs first fuel0, grp true [] first /\ srv rs /\ (length rs <= length first)%nat /\
    forall fuel, (fuel0 <= fuel)%nat -> tyagi_init ceps seps N D d C L only_large try_all g f fuel = Some (TyReturn (Some (encode rs))).
Proof.
  intros d0 Hc0 HN Hself Ha Hf Hsh.
  assert (HN2 : (2 <= N)%nat) by (destruct HN as [HN|[HN _]]; lia).
  assert (Hsh' : shortens N D f \/ ~ limit_set L).
  { unfold limit_set in *. destruct L as [l|]; [|right; tauto]. destruct (Z.eq_dec l 0) as [El|El]; [right; tauto|left; auto]. }
  assert (Hres : exists first chosen fuel0, grp true [] first /\ srv chosen /\ (length chosen <= length first)%nat /\ forall fuel, (fuel0 <= fuel)%nat -> exists sols, grouping_of fuel = Some (Some (encode chosen :: sols))).
  { destruct (is_set C) eqn:Es.
    - assert (Hset := proj1 (is_set_limit C) Es). destruct HN as [HN|[_ Hn]]; [|contradiction]. unfold limit_set in Hset. destruct C as [c|] eqn:EC; [|destruct Hset].
      assert (Hc : 0 < c) by (specialize (Hc0 c eq_refl); lia). rewrite <- EC in *.
      destruct (grouping_chosen c EC Hc d0 HN Hself Ha) as (first & gr & chosen & pts & fuel0 & H1 & _ & _ & _ & _ & H5).
      destruct (H5 fuel0 (le_n _)) as (_ & sols & E & Hall). inversion Hall as [|? ? (t & Et & Hs & Hl) _]; subst.
      exists first, t, fuel0. split; [exact H1|]. split; [exact Hs|]. split; [exact Hl|]. intros fuel Hfu. destruct (H5 fuel Hfu) as (_ & sols' & E' & _). exists sols'. rewrite <- Et. exact E'.
    - destruct (grouping_plain Es HN2 Hself Ha) as (first & pts & fuel0 & H1 & H2 & _ & H4). exists first, first, fuel0. split; [exact H1|]. split; [exact H2|]. split; [lia|]. intros fuel Hfu. exists []. now apply H4. }
  destruct Hres as (first & chosen & fuel0 & H1 & H2 & H3 & H4). destruct (tsp_phase f chosen Hf H2 HN2) as (rs & E & HF & Hs).
  exists rs, first, fuel0. split; [exact H1|]. split; [now apply Hs|]. split.
  { assert (length chosen = length rs) by (clear - HF; induction HF; cbn; congruence). lia. }
  intros fuel Hfu. destruct (H4 fuel Hfu) as [sols E']. unfold tyagi_init. rewrite E', E. reflexivity.
Qed.

Lemma chosen_result c : C = Some c -> 0 < c -> d 0%nat = 0 -> (3 <= N)%nat -> self_first N D -> served_alone N D d C L ceps seps ->
  exists first gr chosen fuel0,
    grp true [] first /\ (forall x, (1 <= x < N)%nat -> grp false [x] (gr x)) /\ chosen_spec c first gr chosen /\
    forall f, solver N D f -> exists rs, Forall2 (fun r r' => fst (f (0%nat :: r)) = wrap r' /\ Permutation r' r) chosen rs /\
      forall fuel, (fuel0 <= fuel)%nat -> tyagi_init ceps seps N D d C L only_large try_all g f fuel = Some (TyReturn (Some (encode rs))).
Proof.
  intros EC Hc d0 HN Hself Ha. destruct (grouping_chosen c EC Hc d0 HN Hself Ha) as (first & gr & chosen & pts & fuel0 & H1 & H2 & H3 & Hs & _ & H5).
  exists first, gr, chosen, fuel0. split; [exact H1|]. split; [exact H2|]. split; [exact H3|]. intros f Hf.
  destruct (tsp_phase f chosen Hf Hs ltac:(lia)) as (rs & E & HF & _). exists rs. split; [exact HF|]. intros fuel Hfu.
  destruct (H5 fuel Hfu) as (_ & sols & E' & _). unfold tyagi_init. rewrite E', E. reflexivity.
Qed.

(** Interrupts. *)
Lemma ty_interrupts_spec : d 0%nat = 0 -> (forall c, C = Some c -> 0 <= c) -> ((3 <= N)%nat \/ (2 <= N)%nat /\ ~ limit_set C) -> self_first N D -> served_alone N D d C L ceps seps ->
  exists pts fuel0,
    (forall p, In p pts ->
        (fst p <> N_stored -> exists rs, nn_interrupted N p = encode rs /\ srv rs) /\
        (exists rs, nn_interrupted N p = encode rs /\ (forall c, (1 <= c < N)%nat <-> In c (concat rs)) /\ Forall (fun r => r <> []) rs /\ Forall feas rs)) /\
    forall fuel, (fuel0 <= fuel)%nat -> (exists s, group fuel true [] = Some (Some s, pts)) /\
      exists sols, tyagi_interrupts ceps seps N D d C L only_large try_all g fuel = Some (map (nn_interrupted N) pts ++ sols) /\
        sols <> [] /\ Forall (fun s => exists rs, s = encode rs /\ srv rs) sols.
Proof.
  intros d0 Hc0 HN Hself Ha. assert (HN2 : (2 <= N)%nat) by (destruct HN as [HN|[HN _]]; lia).
  assert (Hone : forall rs : list (list nat), (forall c, In c (concat rs) -> (1 <= c < N)%nat) -> Forall (fun r => r <> []) rs -> (forall r, In r rs -> (2 <= length r)%nat -> feas r) -> Forall feas rs).
  { intros rs Hin Hne Hf. apply Forall_forall. intros r Hr. rewrite Forall_forall in Hne. specialize (Hne r Hr). destruct r as [|x [|y r]]; [easy| |apply Hf; [exact Hr|cbn; lia]].
    apply Ha. apply Hin. apply in_concat. exists [x]. split; [exact Hr|now left]. }
  assert (Hpt : forall pts, Forall (ty_passed N D d C L ceps seps [] true try_all ty_start) pts -> forall p, In p pts ->
        (fst p <> N_stored -> exists rs, nn_interrupted N p = encode rs /\ srv rs) /\
        (exists rs, nn_interrupted N p = encode rs /\ (forall c, (1 <= c < N)%nat <-> In c (concat rs)) /\ Forall (fun r => r <> []) rs /\ Forall feas rs)).
  { intros pts Hpts p Hp. rewrite Forall_forall in Hpts. destruct (ty_interrupted N D d C L ceps seps [] true try_all ltac:(lia) p (Hpts p Hp)) as [H1 (rs & E & H2 & H3 & H4)]. split.
    - intros Hn. destruct (H1 Hn) as (rs1 & E1 & K1 & K2 & K3). exists rs1. split; [exact E1|]. split; [exact K1|]. split; [exact K2|]. apply Hone; [|exact K2|exact K3].
      intros c Hc. assert (Hi : In c (seq 1 (N - 1))) by (eapply Permutation_in; [exact K1|exact Hc]). apply in_seq in Hi. lia.
    - exists rs. split; [exact E|]. split; [exact H2|]. split; [exact H3|]. apply Hone; [intros c Hc; now apply H2|exact H3|exact H4]. }
  destruct (is_set C) eqn:Es.
  - assert (Hset := proj1 (is_set_limit C) Es). destruct HN as [HN|[_ Hn]]; [|contradiction]. unfold limit_set in Hset. destruct C as [c|] eqn:EC; [|destruct Hset].
    assert (Hc : 0 < c) by (specialize (Hc0 c eq_refl); lia). rewrite <- EC in *.
    destruct (grouping_chosen c EC Hc d0 HN Hself Ha) as (first & gr & chosen & pts & fuel0 & _ & _ & _ & _ & Hpts & H5).
    exists pts, fuel0. split; [now apply Hpt|]. intros fuel Hf. destruct (H5 fuel Hf) as (E1 & sols & E2 & Hall). split; [eauto|]. exists (encode chosen :: sols).
    split; [unfold tyagi_interrupts; rewrite E1, E2; reflexivity|]. split; [discriminate|]. eapply Forall_impl; [|exact Hall]. intros s (t & Ht & Hs & _). eauto.
  - destruct (grouping_plain Es HN2 Hself Ha) as (first & pts & fuel0 & _ & H2 & Hpts & H4). exists pts, fuel0. split; [now apply Hpt|]. intros fuel Hf. destruct (H4 fuel Hf) as (E1 & E2). split; [eauto|].
    exists [encode first]. split; [unfold tyagi_interrupts; rewrite E1, E2; reflexivity|]. split; [discriminate|]. constructor; [eauto|constructor].
Qed.
End Theorems.

(** The bundled TSP solver does not lengthen the routes it is given. *)
Lemma ropt_shortens eps D N do2 do3 : 0 <= eps -> symmetric D -> exists fuel0, forall fuel, (fuel0 <= fuel)%nat ->
  shortens N D (as_tsp (fun l => solve_tsp_ropt eps fuel D l None do2 do3)).
Proof.
  intros Heps Hs.
  destruct (uniform (fun fuel l => l <> [] -> (forall j, In j l -> (1 <= j < N)%nat) ->
     exists l', as_tsp (fun l => solve_tsp_ropt eps fuel D l None do2 do3) (0%nat :: l) = (0%nat :: l' ++ [0%nat], route_cost D l') /\ Permutation l' l /\ route_cost D l' <= route_cost D l) (words N N)) as [k0 H0].
  { intros l _. destruct l as [|x l]; [exists 0%nat; intros k _ Hne; contradiction|].
    destruct (solve_tsp_spec eps D (0%nat :: x :: l) None do2 do3 Heps Hs ltac:(discriminate)) as [k1 H1].
    exists k1. intros k Hk _ Hin. destruct (H1 k ltac:(lia)) as (r1 & E1 & S1 & C1 & _).
    assert (I1 : initial_tour (0%nat :: x :: l) None = 0%nat :: (x :: l) ++ [0%nat]).
    { unfold initial_tour. assert (Hl : last (0%nat :: x :: l) 0%nat <> 0%nat).
      { change (last (0%nat :: x :: l) 0%nat) with (last (x :: l) 0%nat). destruct (exists_last (l := x :: l) ltac:(discriminate)) as (l0 & y & E). rewrite E, last_last. assert (Hy := Hin y). rewrite E in Hy. specialize (Hy ltac:(apply in_or_app; right; now left)). lia. }
      cbn [hd]. destruct (Nat.eqb_spec (last (0%nat :: x :: l) 0%nat) 0); [contradiction|]. reflexivity. }
    rewrite I1 in S1, C1. apply closed_shape in S1 as (l1 & -> & P1); [|discriminate].
    unfold as_tsp. rewrite E1. exists l1. split; [reflexivity|]. split; [exact P1|]. exact C1. }
  exists k0. intros fuel Hfuel l Hne Hnd Hin. apply (H0 fuel Hfuel l); [apply words_in; [now apply nodup_bounded|intros y Hy; specialize (Hin y Hy); lia]|exact Hne|exact Hin].
Qed.
Lemma shortens_solver N D f : shortens N D f -> solver N D f.
Proof. intros H l H1 H2 H3. destruct (H l H1 H2 H3) as (l' & E & P & _). eauto. Qed.
Lemma plain_result ceps seps N D d C L only_large try_all g : ~ limit_set C -> (2 <= N)%nat -> self_first N D -> served_alone N D d C L ceps seps ->
  exists first fuel0, grouped N D d C L ceps seps [] true try_all first /\
    forall f, solver N D f -> exists rs, Forall2 (fun r r' => fst (f (0%nat :: r)) = wrap r' /\ Permutation r' r) first rs /\
      forall fuel, (fuel0 <= fuel)%nat -> tyagi_init ceps seps N D d C L only_large try_all g f fuel = Some (TyReturn (Some (encode rs))).
Proof.
  intros Hn HN Hself Ha. assert (Es : is_set C = false) by (destruct (is_set C) eqn:E; [exfalso; apply Hn; now apply is_set_limit|reflexivity]).
  destruct (grouping_plain ceps seps N D d C L only_large try_all g Es HN Hself Ha) as (first & pts & fuel0 & H1 & H2 & _ & H4).
  exists first, fuel0. split; [exact H1|]. intros f Hf. destruct (tsp_phase ceps seps N D d C L f first Hf H2 HN) as (rs & E & HF & _). exists rs. split; [exact HF|].
  intros fuel Hfu. destruct (H4 fuel Hfu) as (_ & E'). unfold tyagi_init. rewrite E', E. reflexivity.
Qed.
Lemma group_follows ceps seps N D d C L try_all ends forbidden : (2 <= N)%nat -> self_first N D ->
  exists rs pts fuel0, grouped N D d C L ceps seps forbidden ends try_all rs /\
    Permutation (concat rs) (filter (fun j => negb (existsb (Nat.eqb j) forbidden)) (seq 1 (N - 1))) /\ Forall (fun r => r <> []) rs /\
    (forall r, In r rs -> (2 <= length r)%nat -> feasible D d C L ceps seps r) /\
    forall fuel, (fuel0 <= fuel)%nat -> ty_group ceps seps N D d C L try_all fuel ends forbidden = Some (match rs with [] => None | _ => Some (encode rs) end, pts).
Proof.
  intros HN Hself. destruct (group_run ceps seps N D d C L try_all HN Hself ends forbidden) as (rs & pts & H1 & H2 & _ & H4).
  destruct H2 as (K1 & K2 & K3). exists rs, pts. eexists. split; [exact H1|]. split; [exact K1|]. split; [exact K2|]. split; [exact K3|exact H4].
Qed.
Lemma served_ropt ceps seps N D d C L only_large try_all g eps do2 do3 : 0 <= eps -> symmetric D ->
  d 0%nat = 0 -> (forall c, C = Some c -> 0 <= c) -> ((3 <= N)%nat \/ (2 <= N)%nat /\ ~ limit_set C) -> self_first N D -> served_alone N D d C L ceps seps ->
  exists fuel1, forall fuel2, (fuel1 <= fuel2)%nat ->
  exists rs fuel0, serves N D d C L ceps seps rs /\
    forall fuel, (fuel0 <= fuel)%nat -> tyagi_init ceps seps N D d C L only_large try_all g (as_tsp (fun l => solve_tsp_ropt eps fuel2 D l None do2 do3)) fuel = Some (TyReturn (Some (encode rs))).
Proof.
  intros He Hs H1 H2 H3 H4 H5. destruct (ropt_shortens eps D N do2 do3 He Hs) as [k Hk]. exists k. intros fuel2 Hf. specialize (Hk fuel2 Hf).
  destruct (served ceps seps N D d C L only_large try_all g _ H1 H2 H3 H4 H5 (shortens_solver _ _ _ Hk) (fun _ => Hk)) as (rs & first & fuel0 & _ & A & _ & B). eauto.
Qed.
