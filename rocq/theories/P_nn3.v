(** * Nearest neighbour construction: results and interrupts *)
From Verif Require Import Spec Spec_inter Spec_savings PyBase M_util M_psavings M_nn P_base P_3optstar P_driver P_ssavings P_nn P_nn2 Spec_nn.
Require Import ZifyBool ZifyNat Lia.

Section Results.
Variable N : nat.
Variable D : matrix.
Variable d : demands.
Variables C L : limit.
Variables ceps seps : Z.
Variable forbidden : list nat.
Variable ends_only : bool.
Variable m : nn_mode.
Hypothesis HN : (1 <= N)%nat.

Notation rule := (nn_rule N D d C L ceps seps forbidden ends_only (stop_of D m)).
Notation steps := (nn_steps N D d C L ceps seps forbidden ends_only (stop_of D m)).
Notation free := (free N forbidden).
Notation valid := (valid N D d C L ceps seps forbidden).
Notation feas := (feasible D d C L ceps seps).
Notation rep := (rep N D d C L forbidden).
Notation iter := (nn_iter ceps seps N D d C L m ends_only).
Notation loop := (nn_loop ceps seps N D d C L m ends_only).

Lemma steps_trans a b c : steps a b -> steps b c -> steps a c.
Proof. intros H1 H2. induction H2; [exact H1|]. eapply nn_more; eauto. Qed.
Lemma steps_one a b : rule a b -> steps a b.
Proof. intros H. eapply nn_more; [apply nn_none|exact H]. Qed.

(** ** Termination *)
Definition mu (st : nn_state) : nat := 2 * (N - length (concat (nn_routes st))) + length (filter nonempty (map fst (nn_open st))).

Lemma valid_count st : valid st -> (length (concat (nn_routes st)) <= N - 1)%nat.
Proof.
  intros (V1 & V2 & _). rewrite <- (seq_length (N - 1) 1). apply NoDup_incl_length; [exact V1|]. intros x Hx. apply in_seq. apply V2 in Hx. lia.
Qed.

Lemma rule_mu st st' : rule st st' -> valid st -> (mu st' < mu st)%nat.
Proof.
  intros Hr V. assert (V' := rule_valid N D d C L ceps seps forbidden ends_only m HN _ _ Hr V).
  assert (H1 := valid_count _ V). assert (H2 := valid_count _ V').
  assert (Hc := rule_cases N D d C L ceps seps forbidden ends_only m _ _ Hr). destruct Hc as (_ & a & r & p & b & r' & p' & E1 & _ & _ & E2 & Hc).
  unfold mu in *. rewrite (routes_split _ _ _ _ _ E1), (routes_split _ _ _ _ _ E2) in *. rewrite E1, E2.
  assert (Hf : forall x q, length (filter nonempty (map fst (a ++ (x, q) :: b))) = (length (filter nonempty (map fst a)) + (if nonempty x then 1 else 0) + length (filter nonempty (map fst b)))%nat).
  { intros x q. rewrite map_app, filter_app, app_length. cbn [map fst filter]. destruct (nonempty x); cbn [length]; lia. }
  rewrite !Hf. rewrite !concat_app, !app_length in *. cbn [concat] in *. rewrite !app_length in *.
  destruct Hc as [(-> & -> & _ & j & _ & _ & -> & ->)|[(Hr0 & -> & _ & j & _ & _ & -> & ->)|(Hr0 & -> & _ & -> & -> & j & _ & _)]].
  - cbn [length nonempty] in *. lia.
  - assert (Hl := Permutation_length (ext_perm D ends_only r j)). cbn [length] in Hl. rewrite Hl in *.
    destruct r; [easy|]. cbn [nonempty length] in *. destruct (nonempty _); lia.
  - destruct r; [easy|]. rewrite concat_app, app_length in *. cbn [concat nonempty length app] in *. rewrite app_nil_r in *. cbn [length] in *. lia.
Qed.

(** What the handler sees at the points passed. *)
Definition passed (st : nn_state) (p : nsnap) : Prop :=
  (exists st1, steps st st1 /\ valid st1 /\ snap_of st1 p) \/
  (fst p = N_stored /\ exists st1 a r p0 b, steps st st1 /\ valid st1 /\ nn_open st1 = a ++ (r, p0) :: b /\ r <> [] /\
     fst (snd p) = encode (nn_done st1 ++ [r]) /\ map sl_nodes (snd (snd p)) = map fst (nn_open st1)).

Lemma loop_spec n : forall s st, valid st -> rep s st -> (mu st < n)%nat ->
  exists sf e pts stf, loop n s = Some (sf, e, pts) /\ steps st stf /\ valid stf /\ rep sf stf /\ iter sf = Exc e /\ Forall (passed st) pts.
Proof.
  induction n as [|n IH]; intros s st V R Hm; [lia|]. cbn [nn_loop].
  assert (Hi := iter_spec N D d C L ceps seps forbidden ends_only m HN s st V R). destruct (iter s) as [s' pts|e] eqn:Ei.
  - destruct Hi as (st' & Hr & R' & Hp). assert (V' := rule_valid N D d C L ceps seps forbidden ends_only m HN _ _ Hr V).
    assert (Hmu := rule_mu _ _ Hr V). destruct (IH s' st' V' R' ltac:(lia)) as (sf & e & pts' & stf & El & Hs & Vf & Rf & Ef & Hp').
    rewrite El. exists sf, e, (pts ++ (N_start, (ns_sol s', ns_slots s')) :: pts'), stf. split; [reflexivity|]. split; [eapply steps_trans; [apply steps_one; exact Hr|exact Hs]|].
    split; [exact Vf|]. split; [exact Rf|]. split; [exact Ef|]. apply Forall_app. split; [|constructor].
    + eapply Forall_impl; [|exact Hp]. intros [pt sn] Hx. unfold passed. unfold point_ok in Hx. cbn [fst snd] in *.
      assert (Hst' : snap_of st' (pt, sn) -> exists st1, steps st st1 /\ valid st1 /\ snap_of st1 (pt, sn)) by (intros H; exists st'; auto using steps_one).
      destruct pt; [left; auto|left; exists st; split; [apply nn_none|auto]|left; auto| |left; auto|left; auto].
      right. split; [reflexivity|]. destruct Hx as (a & r & p0 & b & E1 & _ & Hne & _ & E2 & E3). exists st, a, r, p0, b. split; [apply nn_none|auto 10].
    + left. exists st'. split; [apply steps_one; exact Hr|]. split; [exact V'|]. eapply rep_snap; eauto.
    + eapply Forall_impl; [|exact Hp']. intros p [(st1 & H1 & H2)|(H0 & st1 & a & r & p0 & b & H1 & H2)].
      * left. exists st1. split; [|exact H2]. eapply steps_trans; [apply steps_one; exact Hr|exact H1].
      * right. split; [exact H0|]. exists st1, a, r, p0, b. split; [|exact H2]. eapply steps_trans; [apply steps_one; exact Hr|exact H1].
  - exists s, e, [], st. split; [reflexivity|]. split; [apply nn_none|]. auto.
Qed.

Lemma loop_more n : forall s x, loop n s = Some x -> forall k, (n <= k)%nat -> loop k s = Some x.
Proof.
  induction n as [|n IH]; intros s x H k Hk; [discriminate|]. destruct k as [|k]; [lia|]. cbn [nn_loop] in *.
  destruct (iter s) as [s' pts|e]; [|exact H]. destruct (loop n s') as [[[sf e] pts']|] eqn:E; [|discriminate].
  rewrite (IH _ _ E k ltac:(lia)). exact H.
Qed.

(** ** Closing the routes *)
Definition served_routes (st : nn_state) : list (list nat) := nn_done st ++ filter nonempty (map fst (nn_open st)).

Lemma close_encode rs slots : nn_close (encode rs) slots = encode (rs ++ filter nonempty (map sl_nodes slots)).
Proof.
  unfold nn_close. rewrite encode_app2. f_equal. induction slots as [|sl t IH]; [reflexivity|]. cbn [flat_map map filter]. rewrite IH.
  destruct (sl_nodes sl) as [|x r]; reflexivity.
Qed.

Lemma concat_nonempty (rs : list (list nat)) : concat (filter nonempty rs) = concat rs.
Proof. induction rs as [|[|x r] t IH]; cbn; [reflexivity|exact IH|now rewrite IH]. Qed.

Lemma served_concat st : concat (served_routes st) = concat (nn_routes st).
Proof. unfold served_routes, nn_routes. now rewrite !concat_app, concat_nonempty. Qed.

Lemma served_nonempty st : valid st -> Forall (fun r => r <> []) (served_routes st).
Proof.
  intros (_ & _ & V3 & _). apply Forall_app. split; [exact V3|]. apply Forall_forall. intros r Hr. apply filter_In in Hr as [_ Hr]. now destruct r.
Qed.

Lemma served_in st r : In r (served_routes st) -> In r (nn_routes st).
Proof. unfold served_routes, nn_routes. rewrite !in_app_iff, filter_In. tauto. Qed.

Definition allowed (j : nat) : bool := negb (existsb (Nat.eqb j) forbidden).
Lemma allowed_spec j : allowed j = true <-> ~ In j forbidden.
Proof.
  unfold allowed. rewrite negb_true_iff. split.
  - intros H Hi. assert (existsb (Nat.eqb j) forbidden = true); [|congruence]. apply existsb_exists. exists j. split; [exact Hi|apply Nat.eqb_refl].
  - intros H. destruct (existsb (Nat.eqb j) forbidden) eqn:E; [|reflexivity]. apply existsb_exists in E as (x & Hx & E). apply Nat.eqb_eq in E. subst x. contradiction.
Qed.

Lemma covers_when_done st : valid st -> (forall j, ~ free st j) ->
  Permutation (concat (nn_routes st)) (filter allowed (seq 1 (N - 1))).
Proof.
  intros (V1 & V2 & _) Hno. apply NoDup_Permutation; [exact V1|apply NoDup_filter, seq_NoDup|].
  intros x. rewrite filter_In, in_seq, allowed_spec. split.
  - intros Hx. apply V2 in Hx. lia || (split; [lia|tauto]).
  - intros [Hx Hf]. destruct (in_dec Nat.eq_dec x (concat (nn_routes st))) as [H|H]; [exact H|]. exfalso. apply (Hno x). split; [lia|]. auto.
Qed.

(** ** With one route at a time an empty route means that somebody is left *)
Lemma steps_len K st : steps (nn_start K) st -> length (nn_open st) = K.
Proof.
  intros H. induction H as [|s1 s2 H IH Hr]; [cbn; apply repeat_length|].
  assert (Hc := rule_cases N D d C L ceps seps forbidden ends_only m _ _ Hr). destruct Hc as (_ & a & r & p & b & r' & p' & E1 & _ & _ & E2 & _).
  rewrite E2. rewrite E1 in IH. rewrite !app_length in *. exact IH.
Qed.

Lemma one_route st : steps (nn_start 1) st -> (exists j, free (nn_start 1) j) ->
  forall p, nn_open st = [([], p)] -> exists j, free st j.
Proof.
  intros H Hj. induction H as [|s1 s2 H IH Hr]; [auto|]. intros p Ep.
  assert (Hc := rule_cases N D d C L ceps seps forbidden ends_only m _ _ Hr). destruct Hc as (_ & a & r & q & b & r' & p' & E1 & _ & _ & E2 & Hc).
  rewrite E2 in Ep. destruct a as [|x a]; [|destruct a; discriminate]. cbn [app] in *. injection Ep as -> -> ->.
  destruct Hc as [(_ & _ & _ & j & _ & _ & E & _)|[(_ & _ & _ & j & _ & _ & E & _)|(_ & Ed & _ & _ & _ & j & (Hf & _) & _)]]; [discriminate|symmetry in E; exfalso; revert E; apply ext_nonempty|].
  exists j. apply (free_same N forbidden s1 s2 [] r q [] p); auto.
Qed.

(** ** The result *)
Definition outcome_of (st : nn_state) : nn_outcome :=
  NNok (match served_routes st with [] => None | _ => Some (encode (served_routes st)) end).

Lemma encode_length1 rs : Forall (fun r => r <> []) rs -> Nat.eqb (length (encode rs)) 1 = match rs with [] => true | _ => false end.
Proof. intros H. destruct rs as [|r rs]; [reflexivity|]. apply Forall_inv in H. destruct r; [easy|]. reflexivity. Qed.

Lemma nn_result K : self_first N D -> (1 <= K)%nat ->
  exists st out pts fuel0, steps (nn_start K) st /\ valid st /\ (forall j, ~ free st j) /\
    (out = outcome_of st \/ (out = NNraise EType /\ m = NNnearest /\ exists p, nth (nn_turn st) (nn_open st) ([], 0%nat) = ([], p) /\ (nn_turn st < length (nn_open st))%nat)) /\
    Forall (passed (nn_start K)) pts /\
    forall fuel, (fuel0 <= fuel)%nat -> nearest_neighbor_init ceps seps N D d C L K m ends_only forbidden fuel = Some (out, pts).
Proof.
  intros Hself HK. assert (V0 := valid_start N D d C L ceps seps forbidden HN K).
  assert (R0 := rep_start N D d C L forbidden HN K Hself HK).
  destruct (loop_spec (S (mu (nn_start K))) _ _ V0 R0 ltac:(lia)) as (sf & e & pts & stf & El & Hs & Vf & Rf & Ef & Hp).
  assert (Hi := iter_spec N D d C L ceps seps forbidden ends_only m HN sf stf Vf Rf). rewrite Ef in Hi.
  assert (Hno : forall j, ~ free stf j) by (destruct e; [exact Hi|apply Hi|destruct Hi]).
  eexists stf, _, _, (S (mu (nn_start K))). split; [exact Hs|]. split; [exact Vf|]. split; [exact Hno|]. split; [|split].
  3:{ intros fuel Hf. unfold nearest_neighbor_init. rewrite (loop_more _ _ _ El _ Hf). reflexivity. }
  - destruct e; [left|right|destruct Hi].
    + destruct Rf as (R1 & R2 & _). rewrite R1, close_encode. assert (E : map sl_nodes (ns_slots sf) = map fst (nn_open stf)) by (rewrite <- R2, map_map; reflexivity).
      rewrite E. fold (served_routes stf). rewrite encode_length1 by (apply served_nonempty; exact Vf). unfold outcome_of. destruct (served_routes stf); reflexivity.
    + split; [reflexivity|]. split; [apply Hi|]. destruct Hi as (_ & _ & p & E). exists p. split; [exact E|]. apply Rf.
  - constructor; [|exact Hp]. left. exists (nn_start K). split; [apply nn_none|]. split; [exact V0|]. split; [reflexivity|]. cbn [snd nn_start nn_open].
    clear. induction K as [|K IH]; [reflexivity|cbn; f_equal; exact IH].
Qed.

(** ** Interrupts *)
Lemma interrupted_gen p A : fst (snd p) = encode A -> forall X, X = A ++ filter nonempty (map sl_nodes (snd (snd p))) -> Forall (fun r => r <> []) X ->
  exists U, nn_interrupted N p = encode (X ++ singles U) /\ NoDup U /\ forall x, In x U <-> (1 <= x < N)%nat /\ ~ In x (concat X).
Proof.
  intros E1 X EX Hne. unfold nn_interrupted. rewrite E1, close_encode, <- EX.
  set (U := filter _ (range 0 N)). exists U.
  assert (HU : forall x, In x U <-> (1 <= x < N)%nat /\ ~ In x (concat X)).
  { intros x. unfold U. rewrite filter_In, negb_true_iff. unfold range. rewrite in_seq, Nat.sub_0_r.
    assert (Hin : In x (encode X) <-> x = 0%nat \/ In x (concat X)).
    { unfold encode. cbn [In]. rewrite in_flat_map. rewrite in_concat. split.
      - intros [<-|(r & Hr & Hx)]; [now left|]. apply in_app_iff in Hx as [Hx|[<-|[]]]; [right; eauto|now left].
      - intros [->|(r & Hr & Hx)]; [now left|]. right. exists r. split; [exact Hr|]. apply in_or_app. now left. }
    assert (Hex : existsb (Nat.eqb x) (encode X) = true <-> In x (encode X)).
    { rewrite existsb_exists. split; [intros (y & Hy & E); apply Nat.eqb_eq in E; now subst|]. intros H. exists x. split; [exact H|apply Nat.eqb_refl]. }
    split.
    - intros [Hx Hf]. destruct (Nat.eq_dec x 0) as [->|Hx0]; [assert (existsb (Nat.eqb 0%nat) (encode X) = true) by (apply Hex, Hin; now left); congruence|].
      split; [lia|]. intros H. assert (existsb (Nat.eqb x) (encode X) = true) by (apply Hex, Hin; now right). congruence.
    - intros [Hx Hn]. split; [lia|]. apply not_true_is_false. intros H. apply Hex, Hin in H as [->|H]; [lia|contradiction]. }
  rewrite routes2sol_gen_singles by (intros n Hn; apply HU in Hn; lia).
  assert (Elen : (1 <? length (encode X))%nat = match X with [] => false | _ => true end).
  { assert (E := encode_length1 _ Hne). destruct X as [|r t]; [reflexivity|]. assert (length (encode (r :: t)) <> 0)%nat by discriminate. lia. }
  split; [|split; [apply NoDup_filter, seq_NoDup|exact HU]].
  rewrite Elen. destruct X as [|r0 t0] eqn:Es; [reflexivity|]. rewrite <- Es in *. clear - Es.
  assert (HX : X <> []) by (rewrite Es; discriminate). clear Es.
  destruct (exists_last HX) as (X' & x & ->). rewrite (encode_app2 (X' ++ [x])), encode_snoc, !app_assoc, removelast_last. unfold encode. cbn [app flat_map].
  rewrite <- !app_assoc. reflexivity.
Qed.

Lemma interrupted_snap st p : valid st -> snap_of st p ->
  exists rs, nn_interrupted N p = encode rs /\ covers N rs /\ Forall (fun r => r <> []) rs /\ forall r, In r rs -> (2 <= length r)%nat -> feas r.
Proof.
  intros V (E1 & E2). assert (Hne := served_nonempty _ V).
  destruct (interrupted_gen p (nn_done st) E1 (served_routes st)) as (U & E & HnU & HU); [now rewrite E2|exact Hne|].
  exists (served_routes st ++ singles U). split; [exact E|]. rewrite served_concat in HU. split; [|split].
  - unfold covers. rewrite concat_app, served_concat. destruct V as (V1 & V2 & _).
    assert (Es : concat (singles U) = U) by (unfold singles; clear; induction U as [|x U IH]; [reflexivity|cbn; now f_equal]). rewrite Es.
    apply NoDup_Permutation; [apply NoDup_app_intro; [exact V1|exact HnU|]|apply seq_NoDup|].
    + intros x Hx Hu. apply HU in Hu. tauto.
    + intros x. rewrite in_app_iff, HU, in_seq. destruct (in_dec Nat.eq_dec x (concat (nn_routes st))) as [H|H]; [destruct (V2 x H) as [Hx _]; split; [intros _; lia|intros _; now left]|].
      split; [intros [Hx|Hx]; [contradiction|lia]|]. intros Hx. right. split; [lia|exact H].
  - apply Forall_app. split; [exact Hne|]. apply Forall_forall. intros r Hr. apply in_map_iff in Hr as (x & <- & _). discriminate.
  - intros r Hr Hl. apply in_app_iff in Hr as [Hr|Hr].
    + apply served_in in Hr. destruct V as (_ & _ & _ & V4 & _). now apply V4.
    + apply in_map_iff in Hr as (x & <- & _). cbn in Hl. lia.
Qed.

Lemma interrupted_passed st0 p : passed st0 p ->
  (fst p <> N_stored ->
   exists rs, nn_interrupted N p = encode rs /\ covers N rs /\ Forall (fun r => r <> []) rs /\ forall r, In r rs -> (2 <= length r)%nat -> feas r) /\
  exists rs, nn_interrupted N p = encode rs /\ (forall c, (1 <= c < N)%nat <-> In c (concat rs)) /\ Forall (fun r => r <> []) rs /\ forall r, In r rs -> (2 <= length r)%nat -> feas r.
Proof.
  intros [(st & _ & V & Hs)|(Ep & st & a & r & p0 & b & _ & V & Eo & Hr & E1 & E2)].
  - destruct (interrupted_snap st p V Hs) as (rs & H1 & H2 & H3 & H4). split; [intros _; eauto|]. exists rs. split; [exact H1|]. split; [|auto].
    intros c. unfold covers in H2. assert (Hc : In c (seq 1 (N - 1)) <-> In c (concat rs)) by (split; apply Permutation_in; [now symmetry|exact H2]). rewrite <- Hc, in_seq. lia.
  - split; [contradiction|].
    assert (Hin : forall q, In q ((nn_done st ++ [r]) ++ filter nonempty (map fst (nn_open st))) <-> In q (served_routes st)).
    { intros q. unfold served_routes. rewrite !in_app_iff. cbn [In]. split; [|tauto]. intros [[H|[<-|[]]]|H]; auto. right. apply filter_In. split; [|now destruct r].
      apply in_map_iff. exists (r, p0). split; [reflexivity|]. rewrite Eo. apply in_or_app. right. now left. }
    assert (Hne : Forall (fun r => r <> []) ((nn_done st ++ [r]) ++ filter nonempty (map fst (nn_open st)))).
    { apply Forall_forall. intros q Hq. apply Hin in Hq. assert (H := served_nonempty _ V). rewrite Forall_forall in H. now apply H. }
    assert (Hc : forall x, In x (concat ((nn_done st ++ [r]) ++ filter nonempty (map fst (nn_open st)))) <-> In x (concat (nn_routes st))).
    { intros x. rewrite <- served_concat, !in_concat. split; intros (q & Hq & Hx); exists q; (split; [now apply Hin|exact Hx]). }
    destruct (interrupted_gen p (nn_done st ++ [r]) E1 _ eq_refl) as (U & E & HnU & HU); [rewrite E2; exact Hne|]. rewrite E2 in *.
    eexists. split; [exact E|]. destruct V as (V1 & V2 & V3 & V4 & _). split; [|split].
    + intros c. rewrite concat_app, in_app_iff, Hc.
      assert (Es : concat (singles U) = U) by (unfold singles; clear; induction U as [|x U IH]; [reflexivity|cbn; now f_equal]). rewrite Es, HU, Hc.
      destruct (in_dec Nat.eq_dec c (concat (nn_routes st))) as [H|H]; [destruct (V2 c H) as [Hx _]; tauto|tauto].
    + apply Forall_app. split; [exact Hne|]. apply Forall_forall. intros q Hq. apply in_map_iff in Hq as (x & <- & _). discriminate.
    + intros q Hq Hl. apply in_app_iff in Hq as [Hq|Hq].
      * apply Hin, served_in in Hq. now apply V4.
      * apply in_map_iff in Hq as (x & <- & _). cbn in Hl. lia.
Qed.

Lemma single_or_more r : served_alone N D d C L ceps seps -> r <> [] -> (forall j, In j r -> (1 <= j < N)%nat) -> ((2 <= length r)%nat -> feas r) -> feas r.
Proof. intros Ha Hr Hj H. destruct r as [|x [|y r]]; [easy| |apply H; cbn; lia]. apply Ha. apply Hj. now left. Qed.

(** ** The theorems *)
Lemma nn_complete K : self_first N D -> (1 <= K)%nat ->
  (m = NNnearest -> K = 1%nat /\ exists j, (1 <= j < N)%nat /\ ~ In j forbidden) ->
  exists rs pts fuel0,
    Permutation (concat rs) (filter allowed (seq 1 (N - 1))) /\ Forall (fun r => r <> []) rs /\
    (forall r, In r rs -> (2 <= length r)%nat -> feas r) /\
    forall fuel, (fuel0 <= fuel)%nat ->
      nearest_neighbor_init ceps seps N D d C L K m ends_only forbidden fuel = Some (NNok (match rs with [] => None | _ => Some (encode rs) end), pts).
Proof.
  intros Hself HK Hm. destruct (nn_result K Hself HK) as (st & out & pts & fuel0 & Hs & V & Hno & Hout & _ & Hrun).
  exists (served_routes st), pts, fuel0. split; [rewrite served_concat; now apply covers_when_done|]. split; [now apply served_nonempty|].
  split; [intros r Hr; apply served_in in Hr; now apply V|]. intros fuel Hf. rewrite (Hrun fuel Hf).
  destruct Hout as [->|(_ & Em & p & Ep & Hlt)]; [reflexivity|]. exfalso. destruct (Hm Em) as (-> & j0 & Hj & Hf0).
  assert (Hl := steps_len 1 st Hs). destruct (nn_open st) as [|x [|y t]] eqn:Eo; try discriminate.
  replace (nn_turn st) with 0%nat in Ep by (cbn in Hlt; lia). cbn in Ep. subst x.
  destruct (one_route st Hs) with (p := p) as [j Hjf]; [|exact Eo|exact (Hno j Hjf)]. exists j0. split; [exact Hj|]. split; [exact Hf0|]. cbn. tauto.
Qed.
End Results.

Lemma nn_serves ceps seps N D d C L K m ends_only :
  self_first N D -> served_alone N D d C L ceps seps -> (2 <= N)%nat -> (1 <= K)%nat -> (m = NNnearest -> K = 1%nat) ->
  exists rs pts fuel0, serves N D d C L ceps seps rs /\
    forall fuel, (fuel0 <= fuel)%nat -> nearest_neighbor_init ceps seps N D d C L K m ends_only [] fuel = Some (NNok (Some (encode rs)), pts).
Proof.
  intros Hself Ha HN HK Hm.
  destruct (nn_complete N D d C L ceps seps [] ends_only m ltac:(lia) K Hself HK) as (rs & pts & fuel0 & HP & Hne & Hfe & Hrun).
  { intros E. split; [auto|]. exists 1%nat. split; [lia|easy]. }
  exists rs, pts, fuel0. assert (Hall : filter (allowed []) (seq 1 (N - 1)) = seq 1 (N - 1)).
  { clear. generalize (seq 1 (N - 1)) as l. induction l as [|x l IH]; [reflexivity|]. cbn. now f_equal. }
  rewrite Hall in HP. split; [split; [exact HP|]; split; [exact Hne|]|].
  - apply Forall_forall. intros r Hr. apply (single_or_more N D d C L ceps seps ltac:(lia)); [exact Ha| | |now apply Hfe].
    + rewrite Forall_forall in Hne. now apply Hne.
    + intros j Hj. assert (H : In j (seq 1 (N - 1))) by (eapply Permutation_in; [exact HP|]; apply in_concat; eauto). apply in_seq in H. lia.
  - intros fuel Hf. rewrite (Hrun fuel Hf). destruct rs as [|r rs]; [|reflexivity]. exfalso. apply Permutation_length in HP. cbn in HP. rewrite seq_length in HP. lia.
Qed.

Lemma nn_rule_followed ceps seps N D d C L K m ends_only forbidden :
  self_first N D -> (1 <= N)%nat -> (1 <= K)%nat ->
  exists st pts fuel0 out,
    nn_steps N D d C L ceps seps forbidden ends_only (stop_of D m) (nn_start K) st /\ (forall j, ~ Spec_nn.free N forbidden st j) /\
    (forall fuel, (fuel0 <= fuel)%nat -> nearest_neighbor_init ceps seps N D d C L K m ends_only forbidden fuel = Some (out, pts)) /\
    (out = NNok (match filter nonempty (nn_routes st) with [] => None | rs => Some (encode rs) end) \/
     (out = NNraise EType /\ m = NNnearest /\ exists p, nth_error (nn_open st) (nn_turn st) = Some ([], p))).
Proof.
  intros Hself HN HK. destruct (nn_result N D d C L ceps seps forbidden ends_only m HN K Hself HK) as (st & out & pts & fuel0 & Hs & V & Hno & Hout & _ & Hrun).
  exists st, pts, fuel0, out. split; [exact Hs|]. split; [exact Hno|]. split; [exact Hrun|].
  destruct Hout as [->|(-> & Em & p & Ep & Hlt)].
  - left. unfold outcome_of, served_routes, nn_routes. rewrite filter_app.
    assert (E : filter nonempty (nn_done st) = nn_done st).
    { destruct V as (_ & _ & V3 & _). clear - V3. induction V3 as [|r l Hr _ IH]; [reflexivity|]. cbn. destruct r; [easy|]. cbn. now f_equal. }
    rewrite E. destruct (nn_done st ++ _); reflexivity.
  - right. split; [reflexivity|]. split; [exact Em|]. exists p. rewrite <- Ep. apply nth_error_nth'. exact Hlt.
Qed.

Lemma nn_interrupt ceps seps N D d C L K m ends_only forbidden :
  self_first N D -> (1 <= N)%nat -> (1 <= K)%nat ->
  exists out pts fuel0,
    (forall fuel, (fuel0 <= fuel)%nat -> nearest_neighbor_init ceps seps N D d C L K m ends_only forbidden fuel = Some (out, pts)) /\
    forall p, In p pts ->
      (fst p <> N_stored ->
       exists rs, nn_interrupted N p = encode rs /\ covers N rs /\ Forall (fun r => r <> []) rs /\
         (served_alone N D d C L ceps seps -> Forall (feasible D d C L ceps seps) rs)) /\
      (exists rs, nn_interrupted N p = encode rs /\ (forall c, (1 <= c < N)%nat <-> In c (concat rs)) /\ Forall (fun r => r <> []) rs /\
         (served_alone N D d C L ceps seps -> Forall (feasible D d C L ceps seps) rs)).
Proof.
  intros Hself HN HK. destruct (nn_result N D d C L ceps seps forbidden ends_only m HN K Hself HK) as (st & out & pts & fuel0 & Hs & V & Hno & Hout & Hp & Hrun).
  exists out, pts, fuel0. split; [exact Hrun|]. intros p Hin. rewrite Forall_forall in Hp. specialize (Hp p Hin).
  destruct (interrupted_passed N D d C L ceps seps forbidden ends_only m HN _ p Hp) as [H1 H2].
  assert (Hfe : forall rs, (forall c, In c (concat rs) -> (1 <= c < N)%nat) -> Forall (fun r => r <> []) rs ->
    (forall r, In r rs -> (2 <= length r)%nat -> feasible D d C L ceps seps r) -> served_alone N D d C L ceps seps -> Forall (feasible D d C L ceps seps) rs).
  { intros rs Hc Hne H Ha. apply Forall_forall. intros r Hr. apply (single_or_more N D d C L ceps seps ltac:(lia)); [exact Ha| | |now apply H].
    - rewrite Forall_forall in Hne. now apply Hne.
    - intros j Hj. apply Hc. apply in_concat. eauto. }
  split.
  - intros Hns. destruct (H1 Hns) as (rs & E & Hcov & Hne & Hf). exists rs. split; [exact E|]. split; [exact Hcov|]. split; [exact Hne|]. apply Hfe; auto.
    intros c Hc. eapply Permutation_in in Hc; [|exact Hcov]. apply in_seq in Hc. lia.
  - destruct H2 as (rs & E & Hc & Hne & Hf). exists rs. split; [exact E|]. split; [exact Hc|]. split; [exact Hne|]. apply Hfe; auto. intros c. apply Hc.
Qed.

(** ** The queue *)
Lemma pq_deque ops : forall q, pq_wf q -> pq_run ops q = deque_run ops (pq_view q).
Proof.
  induction ops as [|o ops IH]; intros q Hw; [reflexivity|]. destruct o; cbn [pq_run deque_run].
  - assert (H := popleft_view q Hw). destruct (pq_popleft q) as [[x q']|].
    + destruct H as (Hw' & -> & _). cbn. f_equal. now apply IH.
    + rewrite IH by exact Hw. rewrite H. reflexivity.
  - assert (H := popright_view q Hw). destruct (pq_popright q) as [[x q']|].
    + destruct H as (Hw' & -> & _). unfold last_of. rewrite rev_app_distr, removelast_last. cbn. f_equal. now apply IH.
    + rewrite IH by exact Hw. rewrite H. reflexivity.
  - rewrite peekleft_view, IH by exact Hw. reflexivity.
  - rewrite peekright_view, IH by exact Hw. unfold last_of, hd_error. reflexivity.
  - rewrite IH, view_length by exact Hw. reflexivity.
  - rewrite get_view, IH by exact Hw. reflexivity.
Qed.
Lemma pq_new_deque ops l : pq_run ops (pq_new l) = deque_run ops l.
Proof.
  rewrite pq_deque by (unfold pq_wf, pq_new; cbn; lia). f_equal. unfold pq_view, pq_new, pq_len. cbn [pq_items pq_left pq_right skipn].
  rewrite !Nat.sub_0_r. apply firstn_all.
Qed.
