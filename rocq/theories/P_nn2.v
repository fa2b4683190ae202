(** * Nearest neighbour construction: the code follows the rule *)
From Verif Require Import Spec Spec_inter PyBase M_util M_psavings M_nn P_base P_nn Spec_nn.
Require Import ZifyBool ZifyNat Lia.

Lemma set_nth_split {A} k (l : list A) x0 : (k < length l)%nat ->
  exists a b, l = a ++ nth k l x0 :: b /\ length a = k /\ forall y, set_nth k y l = a ++ y :: b.
Proof.
  intros H. exists (firstn k l), (skipn (S k) l). split; [|split].
  - revert l H. induction k as [|k IH]; intros [|x l] H; cbn in H; try lia; [reflexivity|]. cbn [firstn app nth skipn]. f_equal. apply IH. lia.
  - rewrite firstn_length. lia.
  - reflexivity.
Qed.

Lemma route_cost_ends D r : r <> [] -> route_cost D r = D 0%nat (hd 0%nat r) + path_cost D r + D (last r 0%nat) 0%nat.
Proof.
  intros H. unfold route_cost. change (0%nat :: r ++ [0%nat]) with ([0%nat] ++ r ++ [0%nat]).
  rewrite path_cost_app by (try discriminate; destruct r; discriminate). rewrite path_cost_app by (assumption || discriminate).
  cbn [last hd path_cost]. replace (hd 0%nat (r ++ [0%nat])) with (hd 0%nat r) by (destruct r; [easy|reflexivity]). lia.
Qed.

Lemma path_cost_snoc D r j : r <> [] -> path_cost D (r ++ [j]) = path_cost D r + D (last r 0%nat) j.
Proof. intros H. rewrite path_cost_app by (assumption || discriminate). cbn [hd path_cost]. lia. Qed.
Lemma path_cost_front D r j : r <> [] -> path_cost D (j :: r) = D j (hd 0%nat r) + path_cost D r.
Proof. destruct r; [easy|reflexivity]. Qed.

Lemma within_cong lim eps x y : (is_set lim = true -> x = y) -> within lim eps x <-> within lim eps y.
Proof.
  unfold within, is_set, truthy. destruct lim as [c|]; [|tauto]. destruct (Z.eqb_spec c 0) as [E|E]; [intros _; split; intros; lia|].
  intros H. rewrite H by reflexivity. tauto.
Qed.

Section Follow.
Variable N : nat.
Variable D : matrix.
Variable d : demands.
Variables C L : limit.
Variables ceps seps : Z.
Variable forbidden : list nat.
Variable ends_only : bool.
Variable m : nn_mode.
Hypothesis HN : (1 <= N)%nat.

Definition stop_of (m : nn_mode) : (nat -> Prop) -> nat -> Prop :=
  match m with NNfarthest => depot_closest D | NNclosest => depot_farthest D | NNnearest => closest_pair D end.
Notation rule := (nn_rule N D d C L ceps seps forbidden ends_only (stop_of m)).
Notation steps := (nn_steps N D d C L ceps seps forbidden ends_only (stop_of m)).
Notation free := (free N forbidden).
Notation ext := (extended_by D ends_only).
Notation feas := (feasible D d C L ceps seps).

Lemma ext_perm r j : Permutation (ext r j) (j :: r).
Proof. unfold extended_by. destruct (_ && _); [reflexivity|]. symmetry. apply Permutation_cons_append. Qed.
Lemma ext_nonempty r j : ext r j <> [].
Proof. unfold extended_by. destruct (_ && _); [discriminate|]. now destruct r. Qed.

(** ** Invariants of the rule *)
Definition valid (st : nn_state) : Prop :=
  NoDup (concat (nn_routes st)) /\
  (forall j, In j (concat (nn_routes st)) -> (1 <= j < N)%nat /\ ~ In j forbidden) /\
  Forall (fun r => r <> []) (nn_done st) /\
  (forall r, In r (nn_routes st) -> (2 <= length r)%nat -> feas r) /\
  (forall r p, In (r, p) (nn_open st) -> r <> [] -> In p r).

Lemma valid_start K : valid (nn_start K).
Proof.
  assert (E : concat (nn_routes (nn_start K)) = []).
  { unfold nn_routes, nn_start. cbn [nn_done nn_open app]. induction K as [|K IH]; [reflexivity|exact IH]. }
  unfold valid. rewrite E. split; [constructor|]. split; [easy|]. split; [constructor|]. split.
  - intros r Hr Hl. unfold nn_routes, nn_start in Hr. cbn [nn_done nn_open app] in Hr. apply in_map_iff in Hr as (x & <- & Hx). apply repeat_spec in Hx. subst x. cbn in Hl. lia.
  - intros r p Hr. apply repeat_spec in Hr. congruence.
Qed.

Definition adds (st st' : nn_state) (j : nat) : Prop := free st j /\ Permutation (concat (nn_routes st')) (j :: concat (nn_routes st)).

Lemma rule_cases st st' : rule st st' ->
  (nn_turn st < length (nn_open st))%nat /\
  exists a r p b r' p', nn_open st = a ++ (r, p) :: b /\ length a = nn_turn st /\ nth (nn_turn st) (nn_open st) ([], 0%nat) = (r, p) /\
    nn_open st' = a ++ (r', p') :: b /\
    ((r = [] /\ nn_done st' = nn_done st /\ nn_turn st' = nn_turn st /\ exists j, free st j /\ stop_of m (free st) j /\ r' = [j] /\ p' = j) \/
     (r <> [] /\ nn_done st' = nn_done st /\ nn_turn st' = next_turn st /\ exists j, nearest_to N D forbidden st p j /\ feas (ext r j) /\ r' = ext r j /\ p' = j) \/
     (r <> [] /\ nn_done st' = nn_done st ++ [r] /\ nn_turn st' = nn_turn st /\ r' = [] /\ p' = p /\ exists j, nearest_to N D forbidden st p j /\ ~ feas (ext r j))).
Proof.
  intros H. destruct H as [p j Hk E Hf Hs|r p j Hk E Hr Hn Hfe|r p j Hk E Hr Hn Hfe]; (split; [exact Hk|]);
    destruct (set_nth_split (nn_turn st) (nn_open st) ([], 0%nat) Hk) as (a & b & El & Ea & Es); rewrite E in El;
    rewrite Es; eexists a, _, p, b, _, _; (split; [exact El|]); (split; [exact Ea|]); (split; [exact E|]); (split; [reflexivity|]); cbn.
  - left. eauto 10.
  - right. left. eauto 10.
  - right. right. eauto 10.
Qed.

Lemma routes_split st a r p b : nn_open st = a ++ (r, p) :: b ->
  nn_routes st = nn_done st ++ map fst a ++ r :: map fst b.
Proof. intros E. unfold nn_routes. now rewrite E, map_app. Qed.

Lemma rule_adds st st' : rule st st' ->
  (exists j, adds st st' j) \/ (Permutation (concat (nn_routes st')) (concat (nn_routes st)) /\ exists j, free st j).
Proof.
  intros H. apply rule_cases in H as (_ & a & r & p & b & r' & p' & E1 & _ & _ & E2 & Hc).
  rewrite (routes_split _ _ _ _ _ E1), (routes_split _ _ _ _ _ E2).
  assert (Hp : forall j X, Permutation X (j :: r) ->
    Permutation (concat (nn_done st ++ map fst a ++ X :: map fst b)) (j :: concat (nn_done st ++ map fst a ++ r :: map fst b))).
  { intros j X HX. rewrite !concat_app. cbn [concat]. rewrite HX. cbn [app].
    rewrite (app_assoc _ _ (j :: _)), (app_assoc _ _ (r ++ _)). symmetry. apply Permutation_middle. }
  destruct Hc as [(-> & Ed & _ & j & Hf & _ & -> & ->)|[(Hr & Ed & _ & j & (Hf & _) & _ & -> & ->)|(Hr & Ed & _ & -> & -> & j & (Hf & _) & _)]]; rewrite Ed.
  - left. exists j. split; [exact Hf|]. rewrite (routes_split _ _ _ _ _ E1), (routes_split _ _ _ _ _ E2), Ed. apply Hp. reflexivity.
  - left. exists j. split; [exact Hf|]. rewrite (routes_split _ _ _ _ _ E1), (routes_split _ _ _ _ _ E2), Ed. apply Hp. apply ext_perm.
  - right. split; [|now exists j]. rewrite !concat_app. cbn [concat]. rewrite app_nil_r, <- !app_assoc. apply Permutation_app_head. cbn [app].
    rewrite Permutation_app_comm, <- app_assoc. apply Permutation_app_head. apply Permutation_app_comm.
Qed.

Lemma rule_free st st' : rule st st' ->
  (exists j, free st j /\ forall x, free st' x <-> free st x /\ x <> j) \/ ((forall x, free st' x <-> free st x) /\ exists j, free st j).
Proof.
  intros H. apply rule_adds in H as [(j & Hj & HP)|[HP Hj]].
  - left. exists j. split; [exact Hj|]. intros x. unfold Spec_nn.free. split.
    + intros (A & B & E). split; [split; [exact A|split; [exact B|]]|].
      * intros Hi. apply E. eapply Permutation_in; [symmetry; exact HP|]. now right.
      * intros ->. apply E. eapply Permutation_in; [symmetry; exact HP|]. now left.
    + intros ((A & B & E) & Hne). split; [exact A|split; [exact B|]]. intros Hi. eapply Permutation_in in Hi; [|exact HP]. destruct Hi as [->|Hi]; auto.
  - right. split; [|exact Hj]. intros x. unfold Spec_nn.free. split; intros (A & B & E); (split; [exact A|split; [exact B|]]); intros Hi; apply E;
      (eapply Permutation_in; [|exact Hi]); [symmetry|]; exact HP.
Qed.

Lemma free_change st st' a r p b X p' j : nn_open st = a ++ (r, p) :: b -> nn_open st' = a ++ (X, p') :: b -> nn_done st' = nn_done st ->
  Permutation X (j :: r) -> forall x, free st' x <-> free st x /\ x <> j.
Proof.
  intros E1 E2 Ed HX x. unfold Spec_nn.free. rewrite (routes_split _ _ _ _ _ E1), (routes_split _ _ _ _ _ E2), Ed, !concat_app. cbn [concat].
  rewrite !in_app_iff. assert (H : In x X <-> j = x \/ In x r). { split; intros H; [apply (Permutation_in _ HX) in H; exact H|]. apply Permutation_sym in HX. apply (Permutation_in _ HX). exact H. }
  rewrite H. intuition congruence.
Qed.
Lemma free_same st st' a r p b p' : nn_open st = a ++ (r, p) :: b -> nn_open st' = a ++ ([], p') :: b -> nn_done st' = nn_done st ++ [r] ->
  forall x, free st' x <-> free st x.
Proof.
  intros E1 E2 Ed x. unfold Spec_nn.free. rewrite (routes_split _ _ _ _ _ E1), (routes_split _ _ _ _ _ E2), Ed, !concat_app. cbn [concat].
  rewrite !in_app_iff. cbn [In]. intuition.
Qed.

Lemma rule_valid st st' : rule st st' -> valid st -> valid st'.
Proof.
  intros Hrule (V1 & V2 & V3 & V4 & V5). assert (Ha := rule_adds st st' Hrule).
  split; [|split].
  - destruct Ha as [(j & (_ & _ & Hn) & HP)|[HP _]]; (eapply Permutation_NoDup; [symmetry; exact HP|]); [now constructor|exact V1].
  - intros x Hx. destruct Ha as [(j & (H1 & H2 & _) & HP)|[HP _]]; (eapply Permutation_in in Hx; [|exact HP]); [destruct Hx as [<-|Hx]|]; auto.
  - apply rule_cases in Hrule as (_ & a & r & p & b & r' & p' & E1 & _ & _ & E2 & Hc).
    rewrite E1 in V5.
    assert (Hold : forall q, In q (nn_done st ++ map fst a ++ r :: map fst b) -> (2 <= length q)%nat -> feas q).
    { intros q Hq. apply V4. now rewrite (routes_split _ _ _ _ _ E1). }
    assert (Hopen : forall q p0, In (q, p0) (a ++ (r', p') :: b) -> q <> [] -> (r' <> [] -> In p' r') -> In p0 q).
    { intros q p0 Hq Hne Hp'. apply in_app_iff in Hq as [Hq|[E|Hq]].
      - apply V5; [|exact Hne]. apply in_or_app. now left.
      - injection E as -> ->. auto.
      - apply V5; [|exact Hne]. apply in_or_app. right. now right. }
    rewrite (routes_split _ _ _ _ _ E2), E2.
    destruct Hc as [(-> & Ed & _ & j & Hf & _ & -> & ->)|[(Hr & Ed & _ & j & (Hf & _) & Hfe & -> & ->)|(Hr & Ed & _ & -> & -> & j & _ & _)]]; rewrite Ed.
    + split; [exact V3|]. split.
      * intros q Hq Hl. apply in_app_iff in Hq as [Hq|Hq]; [apply Hold; [apply in_or_app; now left|exact Hl]|].
        apply in_app_iff in Hq as [Hq|[<-|Hq]]; [|cbn in Hl; lia|]; (apply Hold; [|exact Hl]); apply in_or_app; right; apply in_or_app; [now left|right; now right].
      * intros q p0 Hq Hne. eapply Hopen; eauto. intros _. now left.
    + split; [exact V3|]. split.
      * intros q Hq Hl. apply in_app_iff in Hq as [Hq|Hq]; [apply Hold; [apply in_or_app; now left|exact Hl]|].
        apply in_app_iff in Hq as [Hq|[<-|Hq]]; [|exact Hfe|]; (apply Hold; [|exact Hl]); apply in_or_app; right; apply in_or_app; [now left|right; now right].
      * intros q p0 Hq Hne. eapply Hopen; eauto. intros _. eapply Permutation_in; [symmetry; apply ext_perm|]. now left.
    + split; [apply Forall_app; split; [exact V3|now constructor]|]. split.
      * intros q Hq Hl. rewrite <- app_assoc in Hq. cbn [app] in Hq. apply in_app_iff in Hq as [Hq|Hq]; [apply Hold; [apply in_or_app; now left|exact Hl]|].
        apply Hold; [|exact Hl]. apply in_or_app. right. destruct Hq as [<-|Hq]; [apply in_or_app; right; now left|].
        apply in_app_iff in Hq as [Hq|[<-|Hq]]; [apply in_or_app; now left|cbn in Hl; lia|apply in_or_app; right; now right].
      * intros q p0 Hq Hne. eapply Hopen; eauto. now intros H.
Qed.

Lemma steps_valid st st' : steps st st' -> valid st -> valid st'.
Proof. induction 1; eauto using rule_valid. Qed.

(** ** The state of the code *)
Definition entry (sl : slot) : list nat * nat := (sl_nodes sl, sl_prev sl).
Definition slot_ok (sl : slot) : Prop := sl_nodes sl <> [] ->
  (is_set C = true -> sl_demand sl = demand d (sl_nodes sl)) /\ (is_set L = true -> sl_cost sl = path_cost D (sl_nodes sl)).
Definition rep (s : nstate) (st : nn_state) : Prop :=
  ns_sol s = encode (nn_done st) /\ map entry (ns_slots s) = nn_open st /\ ns_k s = nn_turn st /\
  (nn_turn st < length (nn_open st))%nat /\
  (forall i, (i < N)%nat -> ns_served s i = false <-> free st i) /\
  (forall i, (i < N)%nat -> qok N D (free st) i (ns_q s i)) /\
  (forall i, free st i -> pq_view (ns_q s i) <> []) /\
  Forall slot_ok (ns_slots s).

Lemma rep_start K : self_first N D -> (1 <= K)%nat -> rep (nn_init N D K forbidden) (nn_start K).
Proof.
  intros Hself HK. unfold rep, nn_init, nn_start. cbn [ns_q ns_served ns_sol ns_slots ns_k nn_done nn_open nn_turn].
  assert (Efree : forall i, free (mknns [] (repeat ([], 0%nat) K) 0) i <-> (1 <= i < N)%nat /\ ~ In i forbidden).
  { intros i. unfold Spec_nn.free, nn_routes. cbn. replace (concat (map fst (repeat (@nil nat, 0%nat) K))) with (@nil nat); [cbn; tauto|].
    clear. induction K as [|K IH]; [reflexivity|exact IH]. }
  split; [reflexivity|]. split; [clear; induction K as [|K IH]; [reflexivity|cbn; f_equal; exact IH]|]. split; [reflexivity|]. split; [rewrite repeat_length; lia|]. split; [|split; [|split]].
  - intros i Hi. rewrite Efree. rewrite orb_false_iff, Nat.eqb_neq. split.
    + intros [H1 H2]. split; [lia|]. intros Hin. assert (existsb (Nat.eqb i) forbidden = true); [|congruence].
      apply existsb_exists. exists i. split; [exact Hin|apply Nat.eqb_refl].
    + intros [H1 H2]. split; [lia|]. destruct (existsb (Nat.eqb i) forbidden) eqn:E; [|reflexivity].
      apply existsb_exists in E as (x & Hx & E). apply Nat.eqb_eq in E. subst x. contradiction.
  - intros i Hi. apply qok_init; [exact Hself|exact Hi|]. intros j Hj. apply Efree in Hj. lia.
  - intros i Hi E. apply Efree in Hi as [Hi _].
    assert (Hq : qok N D (fun j => (j < N)%nat) i (nn_queue N D i)) by (apply qok_init; auto; lia).
    destruct Hq as (_ & _ & _ & Hc). specialize (Hc 0%nat ltac:(lia) ltac:(lia)). rewrite E in Hc. destruct Hc.
  - apply Forall_forall. intros sl Hsl. apply repeat_spec in Hsl. subst sl. intros H. now destruct H.
Qed.

Lemma upd_false (f : nat -> bool) j i : upd f j true i = false <-> f i = false /\ i <> j.
Proof. unfold upd. destruct (Nat.eqb_spec i j); intuition congruence. Qed.

(** The limits tested are those of the extended route. *)
Lemma limits_test sl nn : slot_ok sl -> sl_nodes sl <> [] ->
  let first := hd 0%nat (sl_nodes sl) in let lst := last (sl_nodes sl) 0%nat in
  let de := D 0%nat first + D lst nn + D nn 0%nat in let ds := D 0%nat nn + D nn first + D lst 0%nat in
  let front := negb ends_only && (ds <? de) in
  ext (sl_nodes sl) nn = (if front then nn :: sl_nodes sl else sl_nodes sl ++ [nn]) /\
  (exceeds C ceps (sl_demand sl + d nn) || exceeds L seps (sl_cost sl + (if front then ds else de)) = false <-> feas (ext (sl_nodes sl) nn)) /\
  slot_ok (mkslot (ext (sl_nodes sl) nn) nn (if is_set C then sl_demand sl + d nn else sl_demand sl)
             (if is_set L then sl_cost sl + (if front then D nn first else D lst nn) else sl_cost sl)).
Proof.
  intros Hok Hne first lst de ds front. destruct (Hok Hne) as [Hd Hc]. clear Hok. set (r := sl_nodes sl) in *.
  assert (Ee : route_cost D (r ++ [nn]) = path_cost D r + de).
  { rewrite route_cost_ends by (destruct r; discriminate). rewrite path_cost_snoc by exact Hne. rewrite last_last.
    replace (hd 0%nat (r ++ [nn])) with first by (unfold first; destruct r; [easy|reflexivity]). unfold de, lst. lia. }
  assert (Es : route_cost D (nn :: r) = path_cost D r + ds).
  { rewrite route_cost_ends by discriminate. rewrite path_cost_front by exact Hne. cbn [hd].
    replace (last (nn :: r) 0%nat) with lst by (unfold lst; destruct r; [easy|reflexivity]). unfold ds, first. lia. }
  assert (Eext : ext r nn = if front then nn :: r else r ++ [nn]).
  { unfold extended_by, front. rewrite Ee, Es. replace (path_cost D r + ds <? path_cost D r + de) with (ds <? de) by lia. reflexivity. }
  assert (Edem : demand d (ext r nn) = demand d r + d nn).
  { rewrite (demand_perm d _ _ (ext_perm r nn)), demand_cons. lia. }
  split; [exact Eext|]. split.
  - rewrite orb_false_iff, !exceeds_within. unfold feasible. rewrite Edem.
    assert (HC : within C ceps (sl_demand sl + d nn) <-> within C ceps (demand d r + d nn)).
    { apply within_cong. intros E. now rewrite Hd. }
    assert (HL : within L seps (sl_cost sl + (if front then ds else de)) <-> within L seps (route_cost D (ext r nn))).
    { apply within_cong. intros E. rewrite Eext, Hc by exact E. destruct front; [now rewrite Es|now rewrite Ee]. }
    tauto.
  - intros _. cbn [sl_nodes sl_demand sl_cost]. split.
    + intros E. rewrite E, Hd by exact E. lia.
    + intros E. rewrite E, Hc by exact E. rewrite Eext. destruct front; [rewrite path_cost_front by exact Hne; fold first; lia|rewrite path_cost_snoc by exact Hne; fold lst; lia].
Qed.

Definition snap_of (st : nn_state) (p : nsnap) : Prop :=
  fst (snd p) = encode (nn_done st) /\ map sl_nodes (snd (snd p)) = map fst (nn_open st).

Lemma rep_snap s st pt : rep s st -> snap_of st (pt, (ns_sol s, ns_slots s)).
Proof.
  intros (R1 & R2 & _). split; [exact R1|]. cbn [snd]. rewrite <- R2, map_map. reflexivity.
Qed.

(** What the handler sees at the points of an iteration from [st] to [st']. *)
Definition point_ok (st st' : nn_state) (p : nsnap) : Prop :=
  match fst p with
  | N_deque => snap_of st p
  | N_stored => exists a r p0 b, nn_open st = a ++ (r, p0) :: b /\ length a = nn_turn st /\ r <> [] /\ ~ (forall j, ~ free st j) /\
      fst (snd p) = encode (nn_done st ++ [r]) /\ map sl_nodes (snd (snd p)) = map fst (nn_open st)
  | _ => snap_of st' p
  end.

Lemma encode_snoc rs r : encode (rs ++ [r]) = encode rs ++ r ++ [0%nat].
Proof. unfold encode. rewrite flat_map_app. cbn. now rewrite app_nil_r. Qed.

Lemma iter_spec s st : valid st -> rep s st ->
  match nn_iter ceps seps N D d C L m ends_only s with
  | Go s' pts => exists st', rule st st' /\ rep s' st' /\ Forall (point_ok st st') pts
  | Exc EIndex => forall j, ~ free st j
  | Exc EType => (forall j, ~ free st j) /\ m = NNnearest /\ exists p, nth (nn_turn st) (nn_open st) ([], 0%nat) = ([], p)
  | Exc EUnbound => False
  end.
Proof.
  intros V R. assert (Rsnap := fun pt => rep_snap s st pt R). destruct R as (R1 & R2 & R3 & R4 & R5 & R6 & R7 & R8). destruct V as (V1 & V2 & V3 & V4 & V5).
  unfold nn_iter. set (k := ns_k s) in *.
  assert (Hlen : length (ns_slots s) = length (nn_open st)) by (rewrite <- R2; now rewrite map_length).
  destruct (nth_error (ns_slots s) k) as [sl|] eqn:Esl; [|apply nth_error_None in Esl; lia].
  set (s0 := mkslot [] 0 0 0).
  assert (Hk : (k < length (ns_slots s))%nat) by lia.
  destruct (set_nth_split k (ns_slots s) s0 Hk) as (a & b & El & Ea & Eset).
  assert (Enth : nth k (ns_slots s) s0 = sl) by (now apply nth_error_nth). rewrite Enth in El.
  assert (Eopen : nn_open st = map entry a ++ entry sl :: map entry b) by (rewrite <- R2, El, map_app; reflexivity).
  assert (Eopn : nth (nn_turn st) (nn_open st) ([], 0%nat) = entry sl).
  { rewrite Eopen, app_nth2; rewrite map_length; [|lia]. replace (nn_turn st - length a)%nat with 0%nat by lia. reflexivity. }
  destruct (set_nth_split (nn_turn st) (nn_open st) ([], 0%nat) R4) as (a' & b' & El' & Ea' & Eset'). rewrite Eopn in El'.
  assert (Eab : a' = map entry a /\ b' = map entry b).
  { rewrite Eopen in El'. assert (Hl : length (map entry a) = length a') by (rewrite map_length; lia). clear - El' Hl.
    revert a' El' Hl. generalize (map entry a) as x. clear. induction x as [|y x IH]; intros [|z a'] E Hl; try discriminate.
    - injection E as E. auto.
    - cbn in E. injection E as -> E. cbn in Hl. destruct (IH a' E ltac:(lia)) as [-> ->]. auto. }
  destruct Eab as [-> ->].
  assert (Hslots : forall x, map entry (set_slot k x (ns_slots s)) = set_nth (nn_turn st) (entry x) (nn_open st)).
  { intros x. rewrite Eset'. change (set_slot k x (ns_slots s)) with (set_nth k x (ns_slots s)). rewrite Eset, map_app. reflexivity. }
  assert (Hslen : forall x, length (set_slot k x (ns_slots s)) = length (nn_open st)).
  { intros x. change (set_slot k x (ns_slots s)) with (set_nth k x (ns_slots s)). rewrite Eset, <- Hlen, El, !app_length. reflexivity. }
  assert (Hsl_ok : slot_ok sl) by (rewrite El in R8; apply Forall_app in R8 as [_ R8]; now apply Forall_inv in R8).
  assert (Hforall : forall x, slot_ok x -> Forall slot_ok (set_slot k x (ns_slots s))).
  { intros x Hx. change (set_slot k x (ns_slots s)) with (set_nth k x (ns_slots s)). rewrite Eset. rewrite El in R8. apply Forall_app in R8 as [H1 H2]. apply Forall_inv_tail in H2.
    apply Forall_app. split; [exact H1|]. now constructor. }
  assert (F0 : ~ free st 0) by (intros ((H & _) & _); lia).
  destruct (sl_nodes sl) as [|first rest] eqn:Enodes.
  - (* a new route *)
    assert (Hseed : match get_seed_node N D m (ns_served s) (ns_q s) with
      | Seed sd q => free st sd /\ stop_of m (free st) sd /\ (forall i, (i < N)%nat -> qok N D (fun j => free st j /\ j <> sd) i (q i)) /\
                     (forall i, free st i -> i <> sd -> pq_view (q i) <> [])
      | NoSeed => forall j, ~ free st j
      | SeedTypeError => (forall j, ~ free st j) /\ m = NNnearest
      | SeedUnbound => False
      end).
    { assert (Hlenq : (length (pq_view (ns_q s 0%nat)) < S (pq_len (ns_q s 0%nat)))%nat).
      { rewrite view_length by (apply R6; lia). lia. }
      assert (Hupd : forall sd q0, qok N D (fun j => free st j /\ j <> sd) 0 q0 ->
         (forall i, (i < N)%nat -> qok N D (fun j => free st j /\ j <> sd) i (upd (ns_q s) 0%nat q0 i)) /\
         (forall i, free st i -> i <> sd -> pq_view (upd (ns_q s) 0%nat q0 i) <> [])).
      { intros sd q0 Hq0. split.
        - intros i Hi. unfold upd. destruct (Nat.eqb_spec i 0) as [->|Hne]; [exact Hq0|]. eapply qok_weaken; [|apply R6; exact Hi]. now intros j [Hj _].
        - intros i Hi _. unfold upd. destruct (Nat.eqb_spec i 0) as [->|Hne]; [contradiction|]. now apply R7. }
      destruct m; cbn [get_seed_node stop_of].
      - assert (Hp := seed_popleft_spec N D (free st) (ns_served s) R5 _ _ (R6 0%nat ltac:(lia)) Hlenq F0).
        destruct (seed_pop pq_popleft _ _ _) as [[sd q0]|]; [|exact Hp]. destruct Hp as (H1 & H2 & H3). destruct (Hupd sd q0 H3). auto.
      - assert (Hp := seed_popright_spec N D (free st) (ns_served s) R5 _ _ (R6 0%nat ltac:(lia)) Hlenq F0).
        destruct (seed_pop pq_popright _ _ _) as [[sd q0]|]; [|exact Hp]. destruct Hp as (H1 & H2 & H3). destruct (Hupd sd q0 H3). auto.
      - assert (Hrange : forall i, In i (range 1 N) <-> (1 <= i < N)%nat) by (intros i; unfold range; rewrite in_seq; lia).
        assert (Hp := seed_scan_spec N D (free st) (ns_served s) R5 (range 1 N) [] None None None (ns_q s)).
        specialize (Hp (fun i Hi => proj1 (Hrange i) Hi) R6 (or_intror (fun i _ => R7 i)) (conj eq_refl (fun a H => False_ind _ H))).
        cbn [app] in Hp. destruct (seed_scan _ _ _ _ _ _ _) as [sd q|  | |]; [|destruct Hp| |destruct Hp].
        + destruct Hp as (H1 & H2 & H3). split; [exact H1|]. split; [|split].
          * intros Hx. destruct (H3 Hx) as (t & T1 & T2 & T3). exists t. split; [exact T1|]. split; [exact T2|]. intros x y Hfx Hfy Hne. apply T3; auto. apply Hrange. apply Hfx.
          * intros i Hi. eapply qok_weaken; [|apply H2; exact Hi]. now intros j [Hj _].
          * intros i Hi Hne E. destruct (H2 i (proj2 (proj1 Hi))) as (_ & _ & _ & Hc). specialize (Hc sd H1 (not_eq_sym Hne)). rewrite E in Hc. destruct Hc.
        + split; [|reflexivity]. intros j Hj. apply (Hp j); [apply Hrange; apply Hj|exact Hj]. }
    destruct (get_seed_node N D m (ns_served s) (ns_q s)) as [sd q| | |].
    + destruct Hseed as (Hf & Hst & Hq1 & Hq2).
      set (sl' := mkslot [sd] sd _ _).
      assert (Hrule : rule st (mknns (nn_done st) (set_nth (nn_turn st) ([sd], sd) (nn_open st)) (nn_turn st))).
      { eapply nn_begin; eauto. rewrite Eopn. unfold entry. rewrite Enodes. reflexivity. }
      eexists. split; [exact Hrule|].
      assert (Hrep : rep (mkns q (upd (ns_served s) sd true) (ns_sol s) (set_slot k sl' (ns_slots s)) (if Nat.eqb k (length (set_slot k sl' (ns_slots s))) then 0%nat else k))
                      (mknns (nn_done st) (set_nth (nn_turn st) ([sd], sd) (nn_open st)) (nn_turn st))).
      { assert (Hfr : forall x, free (mknns (nn_done st) (set_nth (nn_turn st) ([sd], sd) (nn_open st)) (nn_turn st)) x <-> free st x /\ x <> sd).
        { eapply free_change; [exact Eopen|apply Eset'|reflexivity|]. unfold entry in *. rewrite Enodes. reflexivity. }
        unfold rep. cbn [ns_q ns_served ns_sol ns_slots ns_k nn_done nn_open nn_turn]. split; [exact R1|]. split; [apply Hslots|].
        rewrite Hslen. split; [destruct (Nat.eqb_spec k (length (nn_open st))); lia|].
        split; [change ([sd], sd) with (entry sl'); rewrite <- (Hslots sl'), map_length, Hslen; exact R4|]. split; [|split; [|split]].
        - intros i Hi. rewrite upd_false, Hfr, R5 by exact Hi. reflexivity.
        - intros i Hi. eapply qok_weaken; [|apply Hq1; exact Hi]. intros j. apply Hfr.
        - intros i Hi. apply Hfr in Hi as [H1 H2]. now apply Hq2.
        - apply Hforall. intros _. unfold sl'. cbn [sl_nodes sl_demand sl_cost]. split; intros ->; [cbn; lia|reflexivity]. }
      split; [exact Hrep|]. constructor; [|constructor; [|constructor]].
      * unfold point_ok. cbn [fst]. split; [exact R1|]. cbn [fst snd].
        change (set_slot k ?x (ns_slots s)) with (set_nth k x (ns_slots s)). rewrite Eset, Eopen, !map_app. cbn [map]. rewrite !map_map. unfold entry. cbn [fst sl_nodes]. rewrite Enodes. reflexivity.
      * exact (rep_snap _ _ N_seeded Hrep).
    + exact Hseed.
    + destruct Hseed as [H1 H2]. split; [exact H1|]. split; [exact H2|]. exists (sl_prev sl). rewrite Eopn. unfold entry. now rewrite Enodes.
    + exact Hseed.
  - (* extending or finishing *)
    assert (Hne : sl_nodes sl <> []) by (rewrite Enodes; discriminate).
    assert (Hprev : In (sl_prev sl) (sl_nodes sl)).
    { apply V5; [|exact Hne]. rewrite Eopen. apply in_or_app. right. left. reflexivity. }
    assert (Hprevc : In (sl_prev sl) (concat (nn_routes st))).
    { apply in_concat. exists (sl_nodes sl). split; [|exact Hprev]. unfold nn_routes. rewrite Eopen, map_app. apply in_or_app. right. apply in_or_app. right. now left. }
    assert (HpN : (sl_prev sl < N)%nat) by (apply V2; exact Hprevc).
    assert (Hpf : ~ free st (sl_prev sl)) by (intros (_ & _ & H); contradiction).
    assert (Hq := R6 _ HpN).
    assert (Hlenq : (length (pq_view (ns_q s (sl_prev sl))) < S (pq_len (ns_q s (sl_prev sl))))%nat) by (rewrite view_length by apply Hq; lia).
    assert (Hnu := next_unserved_spec N D (free st) (ns_served s) R5 (sl_prev sl) _ _ Hq Hlenq).
    destruct (next_unserved _ _ _) as [[nn qp]|].
    2:{ intros j Hj. assert (E := Hnu j Hj). subst j. contradiction. }
    destruct Hnu as ((Hnf & Hnp & Hnmin) & Hqp & tl & Hview).
    assert (Hnear : nearest_to N D forbidden st (sl_prev sl) nn).
    { split; [exact Hnf|]. intros x Hx. apply Hnmin; [exact Hx|]. intros ->. contradiction. }
    destruct (limits_test sl nn Hsl_ok Hne) as (Hext & Htest & Hslot).
    rewrite Enodes in Hext, Htest, Hslot. cbn [hd] in Hext, Htest, Hslot.
    set (front := negb ends_only && _) in *.
    set (de := D 0%nat first + _ + _) in *. set (ds := D 0%nat nn + _ + _) in *.
    destruct (exceeds C ceps (sl_demand sl + d nn) || exceeds L seps (sl_cost sl + (if front then ds else de))) eqn:Etest.
    + (* finished *)
      assert (Hnfe : ~ feas (ext (first :: rest) nn)) by (intros H; apply Htest in H; congruence).
      assert (Hrule : rule st (mknns (nn_done st ++ [first :: rest]) (set_nth (nn_turn st) ([], sl_prev sl) (nn_open st)) (nn_turn st))).
      { eapply nn_finish; eauto; [|discriminate]. rewrite Eopn. unfold entry. now rewrite Enodes. }
      eexists. split; [exact Hrule|].
      set (sl' := mkslot [] (sl_prev sl) (sl_demand sl) (sl_cost sl)).
      assert (Hrep : rep (mkns (upd (ns_q s) (sl_prev sl) qp) (ns_served s) (ns_sol s ++ (first :: rest) ++ [0%nat]) (set_slot k sl' (ns_slots s)) (if Nat.eqb k (length (set_slot k sl' (ns_slots s))) then 0%nat else k))
                       (mknns (nn_done st ++ [first :: rest]) (set_nth (nn_turn st) ([], sl_prev sl) (nn_open st)) (nn_turn st))).
      { assert (Hfr : forall x, free (mknns (nn_done st ++ [first :: rest]) (set_nth (nn_turn st) ([], sl_prev sl) (nn_open st)) (nn_turn st)) x <-> free st x).
        { eapply free_same; [exact Eopen|apply Eset'|]. cbn. now rewrite Enodes. }
        unfold rep. cbn [ns_q ns_served ns_sol ns_slots ns_k nn_done nn_open nn_turn]. split; [now rewrite encode_snoc, R1|]. split; [apply Hslots|].
        rewrite Hslen. split; [destruct (Nat.eqb_spec k (length (nn_open st))); lia|].
        split; [change ([], sl_prev sl) with (entry sl'); rewrite <- (Hslots sl'), map_length, Hslen; exact R4|]. split; [|split; [|split]].
        - intros i Hi. rewrite Hfr. now apply R5.
        - intros i Hi. apply (qok_weaken _ _ (free st)); [intros j Hj; now apply Hfr in Hj|]. unfold upd. destruct (Nat.eqb_spec i (sl_prev sl)) as [->|Hn]; [exact Hqp|now apply R6].
        - intros i Hi. apply Hfr in Hi. unfold upd. destruct (Nat.eqb_spec i (sl_prev sl)) as [->|Hn]; [contradiction|now apply R7].
        - apply Hforall. intros H. now destruct H. }
      split; [exact Hrep|]. constructor; [|constructor; [|constructor]].
      * unfold point_ok. cbn [fst]. exists (map entry a), (first :: rest), (sl_prev sl), (map entry b).
        split; [rewrite Eopen; unfold entry at 2; now rewrite Enodes|]. split; [rewrite map_length; lia|]. split; [discriminate|]. split; [intros H; apply (H nn Hnf)|].
        cbn [fst snd]. split; [now rewrite encode_snoc, R1|]. rewrite <- R2, map_map. reflexivity.
      * exact (rep_snap _ _ N_released Hrep).
    + (* extended *)
      assert (Hfe : feas (ext (first :: rest) nn)) by (now apply Htest).
      assert (Hrule : rule st (mknns (nn_done st) (set_nth (nn_turn st) (ext (first :: rest) nn, nn) (nn_open st)) (next_turn st))).
      { eapply nn_extend; eauto; [|discriminate]. rewrite Eopn. unfold entry. now rewrite Enodes. }
      assert (Hpop := popleft_view qp (proj1 Hqp)). destruct (pq_popleft qp) as [[x qp']|] eqn:Epop; [|rewrite Hview in Hpop; discriminate].
      destruct Hpop as (_ & Hv & _). rewrite Hview in Hv. injection Hv as Ex _.
      eexists. split; [exact Hrule|].
      rewrite <- Hext. set (sl' := mkslot (ext (first :: rest) nn) nn _ _) in *.
      assert (Hrep : rep (mkns (upd (ns_q s) (sl_prev sl) qp') (upd (ns_served s) nn true) (ns_sol s) (set_slot k sl' (ns_slots s)) (if Nat.eqb (S k) (length (set_slot k sl' (ns_slots s))) then 0%nat else S k))
                       (mknns (nn_done st) (set_nth (nn_turn st) (ext (first :: rest) nn, nn) (nn_open st)) (next_turn st))).
      { assert (Hfr : forall x, free (mknns (nn_done st) (set_nth (nn_turn st) (ext (first :: rest) nn, nn) (nn_open st)) (next_turn st)) x <-> free st x /\ x <> nn).
        { eapply free_change; [exact Eopen|apply Eset'|reflexivity|]. rewrite Enodes. apply ext_perm. }
        unfold rep. cbn [ns_q ns_served ns_sol ns_slots ns_k nn_done nn_open nn_turn]. split; [exact R1|]. split; [apply Hslots|].
        rewrite Hslen. split; [unfold next_turn; now rewrite <- R3|].
        split; [change (ext (first :: rest) nn, nn) with (entry sl'); rewrite <- (Hslots sl'), map_length, Hslen; unfold next_turn; destruct (Nat.eqb_spec (S (nn_turn st)) (length (nn_open st))); lia|]. split; [|split; [|split]].
        - intros i Hi. rewrite upd_false, Hfr, R5 by exact Hi. reflexivity.
        - intros i Hi. unfold upd. destruct (Nat.eqb_spec i (sl_prev sl)) as [->|Hn].
          + eapply qok_pop; [|exact Epop|]; [eapply qok_weaken; [|exact Hqp]; intros j Hj; now apply Hfr in Hj|]. left. rewrite <- Ex. cbn [fst]. intros H. apply Hfr in H. tauto.
          + eapply qok_weaken; [|apply R6; exact Hi]. intros j Hj. now apply Hfr in Hj.
        - intros i Hi. apply Hfr in Hi as [H1 H2]. unfold upd. destruct (Nat.eqb_spec i (sl_prev sl)) as [->|Hn]; [contradiction|now apply R7].
        - apply Hforall. exact Hslot. }
      split; [exact Hrep|]. constructor; [|constructor]. exact (rep_snap _ _ N_added Hrep).
Qed.
End Follow.
