(** * A sweep ends and serves everyone: the main loop *)
From Verif Require Import Spec Spec_rfcs Spec_inter Spec_savings PyBase P_base M_util M_psavings M_ssavings M_sweep P_sweep P_ssavings.
From Coq Require Import ZifyBool ZifyNat Lia Arith List Permutation.
Import ListNotations.
Local Open Scope Z_scope.

Lemma mem_app x a b : mem x (a ++ b) = mem x a || mem x b.
Proof. unfold mem. apply existsb_app. Qed.
Lemma mem_false x l : mem x l = false <-> ~ In x l.
Proof. rewrite <- mem_in. destruct (mem x l); split; congruence. Qed.
Lemma mem_perm x l l' : Permutation l l' -> mem x l = mem x l'.
Proof.
  intros H. apply Bool.eq_iff_eq_true. rewrite !mem_in. split; intros G; [exact (Permutation_in x H G)|exact (Permutation_in x (Permutation_sym H) G)].
Qed.
Lemma unset_within lim eps x : is_set lim = false -> within lim eps x.
Proof.
  intros H. apply exceeds_within. unfold is_set in H. unfold exceeds. destruct (truthy lim); [discriminate|reflexivity].
Qed.
Lemma missing_one (a b : list nat) : NoDup a -> NoDup b -> incl a b -> (length a < length b)%nat -> exists x, In x b /\ ~ In x a.
Proof.
  intros Ha Hb Hi Hl. destruct (existsb (fun x => negb (mem x a)) b) eqn:E.
  - apply existsb_exists in E. destruct E as (x & H1 & H2). exists x. split; [exact H1|]. apply mem_false. destruct (mem x a); [discriminate|reflexivity].
  - exfalso. assert (incl b a).
    { intros x Hx. apply mem_in. destruct (mem x a) eqn:E2; [reflexivity|]. assert (G : existsb (fun x => negb (mem x a)) b = true); [|congruence].
      apply existsb_exists. exists x. split; [exact Hx|]. now rewrite E2. }
    assert (G := NoDup_incl_length Hb H). lia.
Qed.

Lemma demand_nonneg (d : demands) s : (forall x, In x s -> 0 <= d x) -> 0 <= demand d s.
Proof. induction s as [|a s IH]; intros H; [cbn; lia|]. rewrite demand_cons. assert (G := H a (or_introl eq_refl)). assert (0 <= demand d s); [|lia]. apply IH. intros x Hx. apply H. now right. Qed.
Lemma demand_incl (d : demands) : forall s s', NoDup s -> NoDup s' -> incl s s' -> (forall x, In x s' -> 0 <= d x) -> demand d s <= demand d s'.
Proof.
  induction s as [|a s IH]; intros s' H1 H2 H3 H4; [apply demand_nonneg, H4|].
  inversion H1 as [|? ? G1 G2]; subst. assert (Ha : In a s') by (apply H3; now left).
  rewrite (demand_perm d _ _ (del_perm a s' H2 Ha)), !demand_cons. assert (demand d s <= demand d (del a s')); [|lia].
  apply IH; [exact G2|apply NoDup_filter, H2| |].
  - intros x Hx. apply filter_In. split; [apply H3; now right|]. destruct (Nat.eqb_spec a x); [subst; easy|reflexivity].
  - intros x Hx. apply filter_In in Hx. apply H4, Hx.
Qed.
Lemma within_less lim eps x y : x <= y -> within lim eps y -> within lim eps x.
Proof. intros H. unfold within. destruct lim; [|easy]. intros G Hc. specialize (G Hc). lia. Qed.

Lemma nodup_used (rs : list (list nat)) (s s' : list nat) : NoDup (concat rs ++ s) -> NoDup s' -> incl s' s -> NoDup (concat rs ++ s').
Proof.
  generalize (concat rs). intros l. induction l as [|a l IH]; cbn [app]; intros H1 H2 H3; [exact H2|].
  inversion H1 as [|? ? G1 G2]; subst. constructor; [|apply IH; assumption].
  intros Hin. apply G1. apply in_app_or in Hin. apply in_or_app. destruct Hin as [Hin|Hin]; [now left|right; apply H3, Hin].
Qed.


Section Sweep.
Variables ceps seps : Z.
Variable N : nat.
Variable D : matrix.
Variable d : demands.
Variables C L : limit.
Variable f : routing.
Variable order : list nat.
Variable ccw : bool.
Hypothesis Hf : solver N D f.
Hypothesis Halone : served_alone N D d C L ceps seps.
Hypothesis Hnd : NoDup order.
Hypothesis Hcust : forall x, In x order -> (1 <= x < N)%nat.
Hypothesis Hd : forall i, (1 <= i < N)%nat -> 0 <= d i.
Notation len := (length order).
Notation carries := (carries d C).
Notation toured := (toured D).

(** The finished routes *)
Definition finished (r : swroute) (l : list nat) : Prop :=
  sr_route r = 0%nat :: l ++ [0%nat] /\ l <> [] /\ feasible D d C L ceps seps l.

(** [rs] and the customers [s] of the current route are those marked as routed *)
Record marked (routes : list swroute) (rs : list (list nat)) (routed : nat -> bool) (count : nat) (r : swroute) : Prop := {
  mk_routes : Forall2 finished routes rs;
  mk_nodup : NoDup (concat rs ++ sr_set r);
  mk_incl : incl (concat rs ++ sr_set r) order;
  mk_routed : forall x, In x order -> routed x = mem x (concat rs ++ sr_set r);
  mk_count : count = length (concat rs);
  mk_carries : carries r;
  mk_C : sr_set r <> [] -> within C ceps (demand d (sr_set r)) }.

Record sw_inv (st : swstate) (rs : list (list nat)) : Prop := {
  si_marked : marked (sw_routes st) rs (sw_routed st) (sw_count st) (sw_current st);
  si_pos : (sw_pos st < len)%nat;
  si_node : match sw_node st with
            | Some x => sw_complete st = false /\ x = node_at order (sw_pos st) /\ ~ In x (concat rs ++ sr_set (sw_current st))
            | None => sw_complete st = true /\ sr_set (sw_current st) <> [] /\ incl order (concat rs ++ sr_set (sw_current st))
            end }.

Definition sw_measure (st : swstate) (rs : list (list nat)) : nat :=
  (len - length (concat rs)) * (len + 2) + (len - length (concat rs ++ sr_set (sw_current st))).

Lemma carries_exceeds r y : carries r -> exceeds C ceps (sr_demand r + y) = exceeds C ceps (demand d (sr_set r) + y).
Proof using Type.
  intros H. destruct (is_set C) eqn:E; [now rewrite (H E)|].
  unfold is_set in E. unfold exceeds. destruct (truthy C); [discriminate|reflexivity].
Qed.

Lemma proceed_ok pos node routes rs routed count r bound :
  marked routes rs routed count r -> (pos < len)%nat ->
  match node with
  | Some x => In x order /\ ~ In x (concat rs ++ sr_set r) /\ within C ceps (demand d (sr_set r) + d x)
  | None => (length (concat rs ++ sr_set r) < len)%nat
  end ->
  let st' := sw_proceed D d C L order ccw pos node routes routed count r bound in
  sw_inv st' rs /\ sr_set (sw_current st') = sr_set r ++ match node with Some x => [x] | None => [] end.
Proof using Hnd Hcust.
  intros [M1 M2 M3 M4 M5 M6 M7] Hp Hnode. cbv zeta. unfold sw_proceed. destruct node as [x|].
  - destruct Hnode as (Hx & Hxn & HxC). rewrite (M4 x Hx). rewrite (proj2 (mem_false x _) Hxn). cbn [negb].
    set (routed' := upd routed x true).
    assert (Hn := next_unrouted_ok N order ccw Hcust routed' pos Hp).
    destruct (next_unrouted order ccw len pos pos routed') as (pos' & node'). destruct Hn as (Hp' & Hn).
    assert (Hm : forall y, In y order -> routed' y = mem y (concat rs ++ sr_set r ++ [x])).
    { intros y Hy. unfold routed', upd. destruct (Nat.eqb_spec y x) as [->|Hyx].
      - symmetry. apply mem_in. apply in_or_app. right. apply in_or_app. right. now left.
      - rewrite (M4 y Hy), !mem_app. cbn [mem existsb]. destruct (Nat.eqb_spec y x); [easy|]. now rewrite !Bool.orb_false_r. }
    split; [|reflexivity]. constructor; cbn [sw_routes sw_routed sw_count sw_current sw_pos sw_node sw_complete sr_set add_node].
    + constructor; cbn [sr_set add_node].
      * exact M1.
      * rewrite app_assoc. apply Permutation_NoDup with (x :: (concat rs ++ sr_set r)); [apply Permutation_cons_append|]. constructor; assumption.
      * rewrite app_assoc. intros y Hy. apply in_app_or in Hy. destruct Hy as [Hy|[<-|[]]]; [apply M3, Hy|exact Hx].
      * exact Hm.
      * exact M5.
      * intros HC. unfold add_node. cbn [sr_demand sr_set]. rewrite HC, (M6 HC), demand_snoc. reflexivity.
      * intros _. rewrite demand_snoc. exact HxC.
    + exact Hp'.
    + destruct node' as [y|].
      * destruct Hn as (-> & Hr). split; [reflexivity|]. split; [reflexivity|]. rewrite (Hm _ (node_at_in order pos' Hp')) in Hr. apply mem_false, Hr.
      * destruct Hn as (_ & Hr). split; [reflexivity|]. split; [intros E; apply app_eq_nil in E; destruct E; discriminate|].
        intros y Hy. specialize (Hr y Hy). rewrite (Hm y Hy) in Hr. apply mem_in, Hr.
  - assert (Hn := next_unrouted_ok N order ccw Hcust routed pos Hp).
    destruct (next_unrouted order ccw len pos pos routed) as (pos' & node'). destruct Hn as (Hp' & Hn).
    split; [|cbn [sw_current]; now rewrite app_nil_r]. constructor; cbn [sw_routes sw_routed sw_count sw_current sw_pos sw_node sw_complete].
    + constructor; assumption.
    + exact Hp'.
    + destruct node' as [y|].
      * destruct Hn as (-> & Hr). split; [reflexivity|]. split; [reflexivity|]. rewrite (M4 _ (node_at_in order pos' Hp')) in Hr. apply mem_false, Hr.
      * destruct Hn as (_ & Hr). exfalso. destruct (missing_one _ _ M2 Hnd M3 Hnode) as (y & Hy1 & Hy2).
        specialize (Hr y Hy1). rewrite (M4 y Hy1) in Hr. apply mem_in in Hr. easy.
Qed.

Definition sw_done (routes : list swroute) : Prop :=
  exists rs, Forall2 finished routes rs /\ Permutation (concat rs) order.

Lemma forall2_snoc {A B} (R : A -> B -> Prop) l l' x y : Forall2 R l l' -> R x y -> Forall2 R (l ++ [x]) (l' ++ [y]).
Proof using Type. intros H1 H2. apply Forall2_app; [exact H1|]. constructor; [exact H2|constructor]. Qed.
Lemma concat_snoc (rs : list (list nat)) l : concat (rs ++ [l]) = concat rs ++ l.
Proof using Type. rewrite concat_app. cbn. now rewrite app_nil_r. Qed.

(** The current route is closed: what remains of it after the check of L *)
Lemma close_ok pos node st rs routed r bound :
  Forall2 finished (sw_routes st) rs -> sw_count st = length (concat rs) ->
  toured r -> sr_set r <> [] -> carries r -> within C ceps (demand d (sr_set r)) -> within L seps (sr_cost r) ->
  NoDup (concat rs ++ sr_set r) -> incl (concat rs ++ sr_set r) order ->
  (forall x, In x order -> routed x = mem x (concat rs ++ sr_set r)) -> (pos < len)%nat ->
  match node with Some x => In x order /\ ~ In x (concat rs ++ sr_set r) | None => True end ->
  let routes := sw_routes st ++ [r] in
  let count := (sw_count st + length (sr_set r))%nat in
  exists rs', length (concat rs') = (length (concat rs) + length (sr_set r))%nat /\
  if (len <=? count)%nat then sw_done routes
  else sw_inv (sw_proceed D d C L order ccw pos node routes routed count sr_new bound) rs'.
Proof using Halone Hnd Hcust Hd.
  intros H1 H2 (l & T1 & T2 & T3) H3 H4 H5 H6 H7 H8 H9 Hp Hn. cbv zeta. exists (rs ++ [l]).
  assert (Hpm : Permutation (concat (rs ++ [l])) (concat rs ++ sr_set r)). { rewrite concat_snoc. apply Permutation_app_head, T3. }
  assert (Hnl : l <> []). { intros ->. apply Permutation_nil in T3. easy. }
  assert (HF : Forall2 finished (sw_routes st ++ [r]) (rs ++ [l])).
  { apply forall2_snoc; [exact H1|]. split; [exact T1|]. split; [exact Hnl|]. split; [now rewrite (demand_perm d l _ T3)|]. now rewrite <- T2. }
  split; [rewrite concat_snoc, app_length, (Permutation_length T3); reflexivity|].
  destruct (Nat.leb_spec len (sw_count st + length (sr_set r))) as [Hle|Hgt].
  - exists (rs ++ [l]). split; [exact HF|]. eapply Permutation_trans; [exact Hpm|].
    apply NoDup_Permutation_bis; [exact H7| |exact H8]. rewrite app_length. lia.
  - apply proceed_ok; [|exact Hp|].
    + constructor; cbn [sr_set sr_new]; rewrite ?app_nil_r.
      * exact HF.
      * eapply Permutation_NoDup; [apply Permutation_sym, Hpm|exact H7].
      * intros x Hx. apply H8. eapply Permutation_in; [exact Hpm|exact Hx].
      * intros x Hx. rewrite (H9 x Hx). symmetry. apply mem_perm, Hpm.
      * rewrite concat_snoc, app_length, (Permutation_length T3), H2. reflexivity.
      * intros _. reflexivity.
      * easy.
    + cbn [sr_set sr_new]. rewrite app_nil_r. destruct node as [x|].
      * destruct Hn as (Hx & Hxn). split; [exact Hx|]. split.
        -- intros Hin. apply Hxn. eapply Permutation_in; [exact Hpm|exact Hin].
        -- destruct (Halone x (Hcust x Hx)) as (HC & _). rewrite demand_cons in HC. change (demand d []) with 0 in *. rewrite Z.add_comm in HC. exact HC.
      * rewrite (Permutation_length Hpm), app_length. lia.
Qed.

Lemma iter_ok fuel st rs : (len * S len <= fuel)%nat -> sw_inv st rs ->
  (exists routes, sw_iter ceps seps D d C L f order ccw false fuel st = Some (inl routes) /\ sw_done routes) \/
  (exists st' rs', sw_iter ceps seps D d C L f order ccw false fuel st = Some (inr st') /\ sw_inv st' rs' /\ (sw_measure st' rs' < sw_measure st rs)%nat).
Proof using Hf Halone Hnd Hcust Hd.
  intros Hfuel [[M1 M2 M3 M4 M5 M6 M7] Hp Hnode].
  assert (Hnds : NoDup (sr_set (sw_current st))) by (apply NoDup_app_remove_l in M2; exact M2).
  assert (His : incl (sr_set (sw_current st)) order) by (intros x Hx; apply M3; apply in_or_app; now right).
  assert (Hlu : (length (concat rs ++ sr_set (sw_current st)) <= len)%nat) by (apply NoDup_incl_length; assumption).
  unfold sw_iter. set (cur := sw_current st) in *.
  match goal with |- context [sw_complete st || ?m] => set (complete1 := sw_complete st || m) end.
  match goal with |- context [let '(bound1, complete2) := ?m in _] => set (second := m) end.
  destruct second as (bound1, complete2) eqn:E2. unfold second in E2. clear second.
  cbn [andb orb]. rewrite Bool.orb_false_r.
  (* a closed route is not empty *)
  assert (Hclose : complete2 = true -> sr_set cur <> [] /\ match sw_node st with Some x => True | None => True end).
  { intros ->. split; [|now destruct (sw_node st)]. destruct (sw_node st) as [x|]; [|tauto].
    destruct Hnode as (Hc & Hx & Hxn). unfold complete1 in E2. rewrite Hc, (carries_exceeds cur _ M6) in E2. cbn [orb] in E2.
    intros Hs. rewrite Hs in E2. change (demand d []) with 0 in E2. cbn [app] in E2.
    assert (HxO : In x order) by (rewrite Hx; apply node_at_in; exact Hp).
    destruct (Halone x (Hcust x HxO)) as (A1 & A2). rewrite demand_cons in A1. change (demand d []) with 0 in A1.
    rewrite Z.add_comm in A1. rewrite (proj2 (exceeds_within _ _ _) A1) in E2. cbn [negb andb] in E2.
    destruct (exceeds L 0 (sw_bound st)); [|congruence].
    destruct (Hf [x]) as (l' & El & Hl); [easy|repeat constructor; easy|intros j [<-|[]]; apply Hcust, HxO|].
    rewrite El in E2. cbn [snd] in E2. apply Permutation_sym, Permutation_length_1_inv in Hl. subst l'.
    injection E2 as _ E2. apply exceeds_true in E2. apply E2, A2. }
  assert (Hkeep : complete2 = false -> exists x, sw_node st = Some x /\ ~ In x (concat rs ++ sr_set cur) /\ In x order /\ within C ceps (demand d (sr_set cur) + d x)).
  { intros ->. destruct (sw_node st) as [x|].
    - exists x. destruct Hnode as (Hc & Hx & Hxn). split; [reflexivity|]. split; [exact Hxn|]. split; [rewrite Hx; apply node_at_in; exact Hp|].
      unfold complete1 in E2. rewrite Hc, (carries_exceeds cur _ M6) in E2. cbn [orb] in E2. apply exceeds_within.
      destruct (exceeds C ceps (demand d (sr_set cur) + d x)); [|reflexivity]. cbn in E2. congruence.
    - exfalso. destruct Hnode as (Hc & _). unfold complete1 in E2. rewrite Hc in E2. cbn in E2. congruence. }
  destruct complete2.
  - destruct (Hclose eq_refl) as (Hne & _). clear Hclose Hkeep.
    destruct (routed_by_f_ok N D f order Hf Hcust cur Hne Hnds His) as (T1 & T2 & T3 & T4 & T5).
    set (cur1 := routed_by_f f cur) in *.
    assert (HCcur : within C ceps (demand d (sr_set cur))) by (apply M7, Hne).
    assert (Hcar : carries cur1). { intros HC. rewrite T2, T3. apply M6, HC. }
    match goal with |- context [match ?m with Some _ => _ | None => None end] => set (ensured := m) end.
    assert (HE : exists pos node cur2 routed, ensured = Some (pos, node, cur2, routed, true, false) /\
       toured cur2 /\ sr_set cur2 <> [] /\ carries cur2 /\ within C ceps (demand d (sr_set cur2)) /\ within L seps (sr_cost cur2) /\
       NoDup (concat rs ++ sr_set cur2) /\ incl (concat rs ++ sr_set cur2) order /\
       (forall x, In x order -> routed x = mem x (concat rs ++ sr_set cur2)) /\ (pos < len)%nat /\
       match node with Some x => In x order /\ ~ In x (concat rs ++ sr_set cur2) | None => True end).
    { unfold ensured. destruct (is_set L) eqn:HL.
      - destruct (sr_set cur) as [|y t] eqn:Es; [easy|]. rewrite <- Es in *.
        destruct (in_node_at order y (His y ltac:(rewrite Es; now left))) as (q & Hq & Eq).
        destruct (reach (negb ccw) len (sw_pos st) q Hp Hq) as (j & Hj & Ej).
        destruct (ensure_ok ceps seps N D d C L f order ccw Hf Halone Hcust fuel (sw_pos st) (sw_pos st) cur1 (sw_routed st))
          as (fp & r & routed & EE & G1 & G2 & G3 & G4 & G5 & G6 & G7 & G8); rewrite ?T2; try assumption.
        { exists j. split; [lia|]. split; [|rewrite Ej, Eq, Es; now left].
          assert (length (sr_set cur) <= len)%nat by (rewrite app_length in Hlu; lia). nia. }
        rewrite EE. rewrite T2 in *. assert (Hio : incl (concat rs ++ sr_set r) order).
        { intros x Hx. apply in_app_or in Hx. apply M3, in_or_app. destruct Hx as [Hx|Hx]; [now left|right; apply G4, Hx]. }
        assert (Hmk : forall x, In x order -> routed x = mem x (concat rs ++ sr_set r)).
        { intros x Hx. rewrite G7, (M4 x Hx), !mem_app. fold cur.
          destruct (mem x (sr_set cur)) eqn:E3, (mem x (sr_set r)) eqn:E4; cbn [andb negb]; try reflexivity.
          - rewrite Bool.orb_false_r. symmetry. apply mem_false. intros Hin. apply mem_in in E3.
            clear - M2 E3 Hin. induction (concat rs) as [|a l IH]; [easy|]. inversion M2; subst. destruct Hin as [->|Hin].
            + apply H1. apply in_or_app. now right.
            + apply IH; assumption.
          - exfalso. apply mem_in, G4, mem_in in E4. congruence. }
        assert (HC2 : within C ceps (demand d (sr_set r))).
        { refine (within_less _ _ _ _ (demand_incl _ _ _ G3 Hnds G4 _) HCcur). intros x Hx. apply Hd, Hcust, His, Hx. }
        destruct (Nat.eqb_spec fp (sw_pos st)) as [Efp|Efp].
        + exists (sw_pos st), (sw_node st), r, routed. split; [reflexivity|]. do 5 (split; [assumption|]).
          split; [exact (nodup_used rs _ _ M2 G3 G4)|]. do 2 (split; [assumption|]). split; [exact Hp|].
          destruct (sw_node st) as [x|]; [|easy]. destruct Hnode as (_ & Hx & Hxn). split; [rewrite Hx; apply node_at_in; exact Hp|].
          intros Hin. apply Hxn. apply in_app_or in Hin. apply in_or_app. destruct Hin as [Hin|Hin]; [now left|right; apply G4, Hin].
        + destruct G8 as [(G8 & _)|(G8 & G9 & G10)]; [easy|].
          exists fp, (match sw_node st with Some _ => Some (node_at order fp) | None => None end), r, routed. split; [reflexivity|]. do 5 (split; [assumption|]).
          split; [exact (nodup_used rs _ _ M2 G3 G4)|]. do 2 (split; [assumption|]). split; [exact G8|].
          destruct (sw_node st) as [x|]; [|easy]. split; [apply node_at_in; exact G8|]. apply mem_false. rewrite mem_app.
          rewrite (proj2 (mem_false _ _) G10), Bool.orb_false_r. apply mem_false. intros Hin.
          clear - M2 G9 Hin. induction (concat rs) as [|a l IH]; [easy|]. inversion M2; subst. destruct Hin as [->|Hin].
          * apply H1. apply in_or_app. now right.
          * apply IH; assumption.
      - exists (sw_pos st), (sw_node st), cur1, (sw_routed st). rewrite T2. split; [reflexivity|]. split; [exact T1|].
        split; [exact Hne|]. split; [exact Hcar|]. split; [exact HCcur|]. split; [apply unset_within, HL|]. 
        split; [exact M2|]. split; [exact M3|]. split; [exact M4|]. split; [exact Hp|].
        destruct (sw_node st) as [x|]; [|easy]. destruct Hnode as (_ & Hx & Hxn). split; [rewrite Hx; apply node_at_in; exact Hp|exact Hxn]. }
    destruct HE as (pos & node & cur2 & routed & EE & F1 & F2 & F3 & F4 & F5 & F6 & F7 & F8 & F9 & F10). rewrite EE. clear ensured EE.
    assert (Hl2 : (0 < length (sr_set cur2))%nat) by (destruct (sr_set cur2); [easy|cbn; lia]).
    destruct (close_ok pos node st rs routed cur2 0 M1 M5 F1 F2 F3 F4 F5 F6 F7 F8 F9 F10) as (rs' & Hrs' & Hres).
    cbv zeta in Hres. destruct (Nat.ltb_spec 0 (length (sr_set cur2))); [|lia].
    destruct (len <=? sw_count st + length (sr_set cur2))%nat.
    + left. eexists. split; [reflexivity|exact Hres].
    + right. eexists. exists rs'. split; [reflexivity|]. split; [exact Hres|].
      unfold sw_measure. rewrite Hrs'. assert (G := NoDup_incl_length F6 F7). rewrite app_length in G.
      assert (G2 := Hlu). rewrite app_length in G2.
      set (a := length (concat rs)) in *. set (b := length (sr_set cur2)) in *.
      match goal with |- (?x + ?y < ?z + _)%nat => assert (x + y + 1 <= z)%nat; [|lia]; assert (y <= len)%nat by lia end.
      replace (len - a)%nat with ((len - (a + b)) + b)%nat by lia. nia.
  - destruct (Hkeep eq_refl) as (x & Ex & Hxn & HxO & HxC). rewrite Ex. right.
    destruct (proceed_ok (sw_pos st) (Some x) (sw_routes st) rs (sw_routed st) (sw_count st) cur bound1) as (I1 & I2); [constructor; assumption|exact Hp|auto|].
    eexists. exists rs. split; [reflexivity|]. split; [exact I1|]. unfold sw_measure. rewrite I2. fold cur.
    rewrite !app_length. cbn [length].
    assert (length (concat rs ++ sr_set cur) < len)%nat.
    { destruct (le_lt_dec len (length (concat rs ++ sr_set cur))) as [G|G]; [|exact G]. exfalso. apply Hxn.
      assert (Permutation (concat rs ++ sr_set cur) order) as HP by (apply NoDup_Permutation_bis; assumption).
      exact (Permutation_in x (Permutation_sym HP) HxO). }
    rewrite app_length in *. lia.
Qed.
End Sweep.
