(** * Proofs about the checker and the repair step of lr3opt *)
From Coq Require Import ZifyBool ZifyNat.
From Verif Require Import Spec Spec_inter Spec_savings PyBase M_util M_psavings M_lr3opt Spec_lr3opt P_base P_util P_core P_psavings P_ssavings.

Lemma feas_exceeds D d C L ceps seps r : feasible D d C L ceps seps r <-> exceeds C ceps (demand d r) = false /\ exceeds L seps (route_cost D r) = false.
Proof. unfold feasible. rewrite <- (P_base.exceeds_within C ceps (demand d r)), <- (P_base.exceeds_within L seps (route_cost D r)). reflexivity. Qed.
Lemma unset_exceeds C eps x : is_set C = false -> exceeds C eps x = false.
Proof. unfold is_set, exceeds. destruct (truthy C); [discriminate|reflexivity]. Qed.
Lemma path_cost_app_last D l x : path_cost D ((0%nat :: l) ++ [x]) = path_cost D (0%nat :: l) + D (last l 0%nat) x.
Proof.
  destruct l as [|a l] using rev_ind; [cbn; lia|]. rewrite last_last. change ((0%nat :: l ++ [a]) ++ [x]) with (0%nat :: (l ++ [a]) ++ [x]).
  rewrite <- app_assoc. apply (path_cost_snoc2 D (0%nat :: l) a x).
Qed.
Lemma route_cost_last D r : route_cost D r = path_cost D (0%nat :: r) + D (last r 0%nat) 0%nat.
Proof. apply path_cost_app_last. Qed.

Section S.
Variables (ceps seps : Z) (D : matrix) (d : demands) (C L : limit).
Notation feas := (feasible D d C L ceps seps).
Notation scan := (force_scan ceps seps D d C L).

(** Greedy splitting of a list of customers, the current piece first. *)
Fixpoint pieces (cur ns : list nat) : list (list nat) :=
  match ns with
  | [] => match cur with [] => [] | _ => [cur] end
  | n :: t =>
      match cur with
      | [] => pieces [n] t
      | _ => if exceeds C ceps (demand d (cur ++ [n])) || exceeds L seps (route_cost D (cur ++ [n]))
             then cur :: pieces [n] t else pieces (cur ++ [n]) t
      end
  end.

Lemma scan_pieces ns : customers_only ns -> forall cur td tl p acc, p = last cur 0%nat ->
  (is_set C = true -> td = demand d cur) -> (is_set L = true -> tl = path_cost D (0%nat :: cur)) ->
  scan (ns ++ [0%nat]) (0%nat :: cur) td tl p acc = acc ++ map (fun p => 0%nat :: p ++ [0%nat]) (pieces cur ns).
Proof.
  induction ns as [|n ns IH]; intros Hc cur td tl p acc Hp HC HL.
  - cbn [app force_scan]. cbn [Nat.eqb orb negb]. destruct cur as [|x cur]; cbn [length Nat.ltb Nat.leb andb pieces map force_scan]; [now rewrite app_nil_r|reflexivity].
  - assert (Hn : n <> 0%nat) by exact (Forall_inv Hc). apply Forall_inv_tail in Hc. assert (En : Nat.eqb n 0 = false) by lia.
    change ((n :: ns) ++ [0%nat]) with (n :: ns ++ [0%nat]). cbn [force_scan]. rewrite En. cbn [orb negb].
    assert (EC : exceeds C ceps (td + d n) = exceeds C ceps (demand d (cur ++ [n]))).
    { destruct (is_set C) eqn:E; [|now rewrite !unset_exceeds]. rewrite HC by reflexivity. f_equal. rewrite demand_app, demand_cons, demand_nil. lia. }
    assert (EL : exceeds L seps (tl + D p n + D n 0%nat) = exceeds L seps (route_cost D (cur ++ [n]))).
    { destruct (is_set L) eqn:E; [|now rewrite !unset_exceeds]. rewrite HL by reflexivity. subst p. f_equal. rewrite route_cost_last, last_last.
      change (0%nat :: cur ++ [n]) with ((0%nat :: cur) ++ [n]). rewrite path_cost_app_last. lia. }
    rewrite EC, EL. destruct cur as [|x cur].
    + cbn [length Nat.ltb Nat.leb]. rewrite andb_false_r. cbn [app].
      rewrite (IH Hc [n]); [reflexivity|reflexivity| |].
      * intros E. rewrite E, HC by exact E. cbn. lia.
      * intros E. rewrite E, HL, Hp by exact E. cbn. lia.
    + change (1 <? length (0%nat :: x :: cur))%nat with true. rewrite andb_true_r. cbn [pieces].
      destruct (exceeds C ceps (demand d ((x :: cur) ++ [n])) || exceeds L seps (route_cost D ((x :: cur) ++ [n]))) eqn:Ex.
      * change ([0%nat] ++ [n]) with (0%nat :: [n]). rewrite (IH Hc [n]).
        { cbn [map]. rewrite <- app_assoc. reflexivity. }
        { reflexivity. }
        { intros E. rewrite E. cbn. lia. } { intros E. rewrite E. cbn. lia. }
      * change ((0%nat :: x :: cur) ++ [n]) with (0%nat :: (x :: cur) ++ [n]).
        rewrite (IH Hc ((x :: cur) ++ [n])).
        { reflexivity. }
        { symmetry. apply last_last. }
        { intros E. rewrite E, HC by exact E. rewrite (demand_app d (x :: cur) [n]), (demand_cons d n []), demand_nil. lia. }
        { intros E. rewrite E, HL by exact E. change (0%nat :: (x :: cur) ++ [n]) with ((0%nat :: x :: cur) ++ [n]). rewrite path_cost_app_last. now subst p. }
Qed.

Lemma pieces_concat ns : forall cur, concat (pieces cur ns) = cur ++ ns.
Proof.
  induction ns as [|n ns IH]; intros cur; cbn [pieces].
  - destruct cur; [reflexivity|]. cbn. reflexivity.
  - destruct cur as [|x cur]; [now rewrite IH|]. destruct (_ || _).
    + cbn [concat]. now rewrite IH.
    + rewrite IH, <- app_assoc. reflexivity.
Qed.
Lemma pieces_nonempty ns : forall cur, Forall (fun p => p <> []) (pieces cur ns).
Proof.
  induction ns as [|n ns IH]; intros cur; cbn [pieces].
  - destruct cur; constructor; [discriminate|constructor].
  - destruct cur as [|x cur]; [apply IH|]. destruct (_ || _); [constructor; [discriminate|]|]; apply IH.
Qed.
Lemma pieces_feasible ns : Forall (fun n => feas [n]) ns -> forall cur, cur = [] \/ feas cur -> Forall feas (pieces cur ns).
Proof.
  induction ns as [|n ns IH]; intros Hn cur Hc; cbn [pieces].
  - destruct cur; constructor; [|constructor]. now destruct Hc.
  - destruct cur as [|x cur]; [apply IH; [now apply Forall_inv_tail in Hn|right; exact (Forall_inv Hn)]|].
    destruct (exceeds C ceps _ || exceeds L seps _) eqn:E.
    + constructor; [now destruct Hc|]. apply IH; [now apply Forall_inv_tail in Hn|right; exact (Forall_inv Hn)].
    + apply IH; [now apply Forall_inv_tail in Hn|right]. apply feas_exceeds. now apply orb_false_elim in E.
Qed.
(** Consecutive pieces: the first customer of the next one does not fit. *)
Notation tight := (needed_splits D d C L ceps seps).
Lemma pieces_hd ns : forall cur, cur <> [] -> exists p ps, pieces cur ns = p :: ps /\ hd 0%nat p = hd 0%nat cur.
Proof.
  induction ns as [|n ns IH]; intros cur Hc; cbn [pieces]; destruct cur as [|x cur]; try easy.
  - do 2 eexists. split; reflexivity.
  - destruct (_ || _); [do 2 eexists; split; reflexivity|]. destruct (IH ((x :: cur) ++ [n])) as (p & ps & E & H); [discriminate|].
    exists p, ps. split; [exact E|]. now rewrite H.
Qed.
Lemma pieces_tight ns : forall cur, tight (pieces cur ns).
Proof.
  induction ns as [|n ns IH]; intros cur; cbn [pieces].
  - destruct cur; intros l1 p1 p2 l2 E; destruct l1 as [|? [|? ?]]; try discriminate; destruct l1; discriminate.
  - destruct cur as [|x cur]; [apply IH|]. destruct (exceeds C ceps _ || exceeds L seps _) eqn:Ex; [|apply IH].
    intros l1 p1 p2 l2 E. destruct l1 as [|q l1].
    + injection E as <- E. destruct (pieces_hd ns [n]) as (p & ps & E' & H); [discriminate|]. rewrite E' in E. injection E as -> _. rewrite H.
      cbn [hd]. rewrite feas_exceeds. intros (A & B). rewrite A, B in Ex. discriminate.
    + injection E as _ E. now apply (IH [n] l1 p1 p2 l2).
Qed.

Lemma force_routes rs : Forall customers_only rs -> forall acc,
  fold_left (fun acc r => scan (slice_from 1 r) [0%nat] 0 0 0%nat acc) (map wrap rs) acc
  = acc ++ map wrap (flat_map (pieces []) rs).
Proof.
  induction rs as [|r rs IH]; intros Hc acc; cbn [map fold_left flat_map]; [now rewrite app_nil_r|].
  rewrite (IH (Forall_inv_tail Hc)). unfold slice_from, wrap at 1. cbn [skipn].
  rewrite (scan_pieces r (Forall_inv Hc) [] 0 0 0%nat acc) by reflexivity. rewrite map_app, app_assoc. reflexivity.
Qed.

Lemma force_general rs : Forall customers_only rs -> concat rs <> [] -> Forall (fun n => feas [n]) (concat rs) ->
  exists pss, force_feasible ceps seps (encode rs) D d C L = Some (encode (concat pss)) /\
    Forall2 (fun r ps => concat ps = r /\ Forall (fun p => p <> []) ps /\ Forall feas ps /\ tight ps) rs pss.
Proof.
  intros Hc Hne Hf. exists (map (pieces []) rs). split.
  - unfold force_feasible. rewrite sol2routes_encode by exact Hc.
    assert (Hc' : Forall customers_only (filter nonempty rs)) by now apply incl_Forall with rs; [apply incl_filter|].
    rewrite (force_routes _ Hc'). cbn [app]. rewrite map_map.
    assert (E : flat_map (pieces []) (filter nonempty rs) = concat (map (pieces []) rs)).
    { clear. induction rs as [|[|x r] rs IH]; [reflexivity|exact IH|]. cbn [filter nonempty flat_map map concat]. now rewrite IH. }
    rewrite E.
    assert (E2 : concat (concat (map (pieces []) rs)) = concat rs).
    { clear. induction rs as [|r rs IH]; [reflexivity|]. cbn [map concat]. now rewrite concat_app, IH, pieces_concat. }
    apply routes2sol_wrap.
    + intros E3. rewrite E3 in E2. cbn in E2. now symmetry in E2.
    + apply Forall_forall. intros p Hp. apply Forall_forall. intros x Hx.
      assert (Hx' : In x (concat rs)) by (rewrite <- E2; apply in_concat; now exists p).
      apply in_concat in Hx'. destruct Hx' as (r & Hr & Hx'). rewrite Forall_forall in Hc. specialize (Hc r Hr). unfold customers_only in Hc. rewrite Forall_forall in Hc. auto.
    + apply Forall_forall. intros p Hp. apply in_concat in Hp. destruct Hp as (ps & Hps & Hp). apply in_map_iff in Hps. destruct Hps as (r & <- & _).
      pose proof (pieces_nonempty r []) as H. rewrite Forall_forall in H. auto.
  - clear Hc Hne. induction rs as [|r rs IH]; [constructor|]. cbn [concat] in Hf. apply Forall_app in Hf. destruct Hf as (Hf1 & Hf2). cbn [map]. constructor; [|auto].
    split; [apply pieces_concat|]. split; [apply pieces_nonempty|]. split; [apply pieces_feasible; auto|apply pieces_tight].
Qed.

Lemma Forall2_concat (P : list nat -> list (list nat) -> Prop) rs pss : (forall r ps, P r ps -> concat ps = r) -> Forall2 P rs pss -> concat (concat pss) = concat rs.
Proof. intros H F. induction F as [|r ps rs pss Hr F IH]; [reflexivity|]. cbn [concat]. now rewrite concat_app, IH, (H _ _ Hr). Qed.
Lemma Forall2_Forall_concat (P : list nat -> list (list nat) -> Prop) (Q : list nat -> Prop) rs pss : (forall r ps, P r ps -> Forall Q ps) -> Forall2 P rs pss -> Forall Q (concat pss).
Proof. intros H F. induction F as [|r ps rs pss Hr F IH]; [constructor|]. cbn [concat]. apply Forall_app. split; [now apply (H r)|exact IH]. Qed.

Lemma repair rs : Forall customers_only rs -> concat rs <> [] -> Forall (fun n => feas [n]) (concat rs) ->
  exists rs', force_feasible ceps seps (encode rs) D d C L = Some (encode rs') /\
    concat rs' = concat rs /\ Forall (fun r => r <> []) rs' /\ Forall feas rs'.
Proof.
  intros Hc Hne Hf. destruct (force_general rs Hc Hne Hf) as (pss & E & F). exists (concat pss). split; [exact E|].
  split; [|split].
  - eapply Forall2_concat; [|exact F]. now intros r ps (H & _).
  - eapply Forall2_Forall_concat; [|exact F]. now intros r ps (_ & H & _).
  - eapply Forall2_Forall_concat; [|exact F]. now intros r ps (_ & _ & H & _).
Qed.

Lemma unchanged rs : Forall customers_only rs -> concat rs <> [] -> Forall (fun n => feas [n]) (concat rs) ->
  (forall r a b, In r rs -> r = a ++ b -> feas a) ->
  force_feasible ceps seps (encode rs) D d C L = Some (encode (filter nonempty rs)).
Proof.
  intros Hc Hne Hf Hp. destruct (force_general rs Hc Hne Hf) as (pss & E & F). rewrite E. do 2 f_equal.
  clear E Hc Hne Hf. induction F as [|r ps rs pss (H1 & H2 & H3 & H4) F IH]; [reflexivity|].
  assert (IH' : concat pss = filter nonempty rs) by (apply IH; intros r' a b Hr; apply Hp; now right).
  cbn [concat]. rewrite IH'. destruct ps as [|p [|p2 ps]].
  - cbn in H1. subst r. reflexivity.
  - cbn in H1. rewrite app_nil_r in H1. subst p. apply Forall_inv in H2. destruct r; [easy|reflexivity].
  - exfalso. apply (H4 [] p p2 ps eq_refl). assert (H5 : p2 <> []) by exact (Forall_inv (Forall_inv_tail H2)). destruct p2 as [|x p2]; [easy|].
    apply (Hp r (p ++ [x]) (p2 ++ concat ps)); [now left|]. rewrite <- H1. cbn. now rewrite <- !app_assoc.
Qed.

(** ** The checker *)
Notation check := (check_CL ceps seps D d C L).
Hypothesis HD : nonneg_matrix D.
Hypothesis Hd : forall n, 0 <= d n.

Lemma exceeds_mono (X : limit) eps x y : x <= y -> exceeds X eps y = false -> exceeds X eps x = false.
Proof. unfold exceeds. destruct (truthy X); [lia|reflexivity]. Qed.
Lemma path_nonneg l : 0 <= path_cost D l.
Proof. induction l as [|a [|b l] IH]; [cbn; lia|cbn; lia|]. rewrite path_cost_cons2. pose proof (HD a b). lia. Qed.
Lemma demand_nonneg l : 0 <= demand d l.
Proof. induction l as [|a l IH]; [cbn; lia|]. rewrite demand_cons. pose proof (Hd a). lia. Qed.

Lemma check_route r t : customers_only r -> forall p c l, exceeds C ceps c = false ->
  check (r ++ 0%nat :: t) (Some p) c l =
  negb (exceeds C ceps (c + demand d r)) && negb (exceeds L seps (l + path_cost D (p :: r ++ [0%nat]))) && check t (Some 0%nat) 0 0.
Proof.
  induction r as [|n r IH]; intros Hc p c l HC.
  - cbn [app check_CL]. cbn [Nat.eqb negb]. rewrite andb_false_r. cbn [andb]. rewrite demand_nil, Z.add_0_r, HC. cbn [negb andb].
    rewrite path_cost_cons2, path_cost_one, Z.add_0_r. destruct (is_set L) eqn:EL; cbn [andb].
    + destruct (exceeds L seps (l + D p 0%nat)); reflexivity.
    + now rewrite unset_exceeds.
  - assert (Hn : n <> 0%nat) by exact (Forall_inv Hc). apply Forall_inv_tail in Hc. assert (En : Nat.eqb n 0 = false) by lia.
    change ((n :: r) ++ 0%nat :: t) with (n :: r ++ 0%nat :: t). cbn [check_CL]. rewrite En. cbn [negb]. rewrite !andb_true_r.
    rewrite demand_cons. change ((n :: r) ++ [0%nat]) with (n :: r ++ [0%nat]). rewrite path_cost_cons2.
    assert (A : is_set C && exceeds C ceps (if is_set C then c + d n else c) = exceeds C ceps (c + d n)).
    { destruct (is_set C) eqn:E; [reflexivity|]. symmetry. now apply unset_exceeds. }
    rewrite A. destruct (exceeds C ceps (c + d n)) eqn:E1.
    + assert (E2 : exceeds C ceps (c + (d n + demand d r)) = true).
      { destruct (exceeds C ceps (c + (d n + demand d r))) eqn:E2; [reflexivity|]. apply (exceeds_mono C ceps (c + d n)) in E2; [congruence|]. pose proof (demand_nonneg r). lia. }
      now rewrite E2.
    + assert (B : is_set L && exceeds L seps (if is_set L then l + D p n else l) = exceeds L seps (l + D p n)).
      { destruct (is_set L) eqn:E; [reflexivity|]. symmetry. now apply unset_exceeds. }
      rewrite B. destruct (exceeds L seps (l + D p n)) eqn:E2.
      * assert (E3 : exceeds L seps (l + (D p n + path_cost D (n :: r ++ [0%nat]))) = true).
        { destruct (exceeds L seps (l + (D p n + path_cost D (n :: r ++ [0%nat])))) eqn:E3; [reflexivity|]. apply (exceeds_mono L seps (l + D p n)) in E3; [congruence|]. pose proof (path_nonneg (n :: r ++ [0%nat])). lia. }
        rewrite E3. now rewrite andb_false_r.
      * rewrite IH; [|exact Hc|destruct (is_set C); assumption].
        assert (F1 : exceeds C ceps ((if is_set C then c + d n else c) + demand d r) = exceeds C ceps (c + (d n + demand d r))).
        { destruct (is_set C) eqn:E; [f_equal; lia|now rewrite !unset_exceeds]. }
        assert (F2 : exceeds L seps ((if is_set L then l + D p n else l) + path_cost D (n :: r ++ [0%nat])) = exceeds L seps (l + (D p n + path_cost D (n :: r ++ [0%nat])))).
        { destruct (is_set L) eqn:E; [f_equal; lia|now rewrite !unset_exceeds]. }
        now rewrite F1, F2.
Qed.

Lemma check_encode rs : Forall customers_only rs -> within C ceps 0 ->
  (check_CL_constraints ceps seps (encode rs) D d C L = true <-> Forall feas rs).
Proof.
  intros Hc H0. unfold check_CL_constraints, encode. cbn [check_CL Nat.eqb negb]. rewrite !andb_false_r. cbn [andb].
  apply (proj2 (P_base.exceeds_within _ _ _)) in H0. induction rs as [|r rs IH].
  - cbn. split; [constructor|reflexivity].
  - cbn [flat_map]. rewrite <- app_assoc. cbn [app]. rewrite (check_route r _ (Forall_inv Hc)) by exact H0. rewrite !Z.add_0_l.
    rewrite !andb_true_iff, !negb_true_iff, (IH (Forall_inv_tail Hc)).
    pose proof (feas_exceeds D d C L ceps seps r) as Fe. unfold route_cost in Fe. rewrite <- Fe. split.
    + intros (A & B). now constructor.
    + intros H. split; [exact (Forall_inv H)|exact (Forall_inv_tail H)].
Qed.
End S.

Lemma no_customers ceps seps D d C L rs : Forall customers_only rs -> concat rs = [] -> force_feasible ceps seps (encode rs) D d C L = None.
Proof.
  intros Hc E. unfold force_feasible. rewrite sol2routes_encode by exact Hc. replace (filter nonempty rs) with (@nil (list nat)); [reflexivity|].
  clear Hc. induction rs as [|[|x r] rs IH]; [reflexivity|apply IH; exact E|discriminate].
Qed.
