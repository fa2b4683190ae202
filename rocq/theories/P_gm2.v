(** * Gillett and Miller's sweep: exchanges keep the routes complete and within the limits *)
From Verif Require Import Spec Spec_rfcs Spec_inter Spec_savings Spec_sweep PyBase P_base M_util M_psavings M_ssavings M_savfam M_nn M_sweep M_gm P_sweep P_sweep2 P_sweep3 P_ssavings P_gm.
From Coq Require Import ZifyBool ZifyNat Lia Arith List Permutation.
Import ListNotations.
Local Open Scope Z_scope.

Lemma demand_app d a b : demand d (a ++ b) = demand d a + demand d b.
Proof. induction a as [|x a IH]; [reflexivity|]. cbn [app]. rewrite !demand_cons, IH. lia. Qed.
Lemma del_in x y l : In x (del y l) <-> In x l /\ x <> y.
Proof.
  unfold del. rewrite filter_In. split; intros (H1 & H2); (split; [exact H1|]).
  - intros ->. rewrite Nat.eqb_refl in H2. discriminate.
  - destruct (Nat.eqb_spec y x); [congruence|reflexivity].
Qed.
Lemma fold_upd b l : forall (g : nat -> bool) x, fold_left (fun r y => upd r y b) l g x = if mem x l then b else g x.
Proof.
  induction l as [|y l IH]; intros g x; [reflexivity|]. cbn [fold_left]. rewrite IH. unfold mem in *. cbn [existsb]. unfold upd.
  destruct (Nat.eqb x y), (existsb (Nat.eqb x) l); reflexivity.
Qed.
Lemma gm_remove_in score l kii : gm_remove score l = Some kii -> In kii l.
Proof.
  revert kii. induction l as [|x l IH]; intros kii H; [easy|]. cbn [gm_remove] in H. destruct (gm_remove score l) as [y|].
  - destruct (score y <? score x); injection H as <-; [right; now apply IH|now left].
  - injection H as <-. now left.
Qed.

Section Callback.
Variables ceps seps : Z.
Variable N : nat.
Variable D : matrix.
Variable d : demands.
Variables C L : limit.
Variable tsp : matrix -> routing.
Variable order : list nat.
Hypothesis Hf : solver N D (tsp D).
Hypothesis Hp : Permutation order (seq 1 (N - 1)).
Notation len := (length order).
Notation carries := (carries d C).
Notation toured := (toured D).

Definition swapped (f : routing) (routed : nat -> bool) (r : swroute) (J : nat) (res : callback_result) : Prop :=
  exists r' kii inc, res = (r', inc, kii :: (if mem J inc then [] else [J]), false) /\
    In kii (sr_set r) /\ inc <> [] /\ NoDup inc /\ (forall x, In x inc -> In x order /\ routed x = false) /\
    sr_set r' = del kii (sr_set r) ++ inc /\ toured r' /\ carries r' /\
    within C ceps (demand d (sr_set r')) /\ within L seps (sr_cost r') /\ sr_cost r' = snd (f (0%nat :: sr_set r')).
Definition contract (f : routing) (routed : nat -> bool) (r : swroute) (J : nat) (res : callback_result) : Prop :=
  res = (r, [], [], true) \/ (routed J = false /\ swapped f routed r J res).

Lemma in_order x : In x order <-> (1 <= x < N)%nat.
Proof using Hp.
  split; intros H.
  - apply (Permutation_in _ Hp), in_seq in H. lia.
  - apply (Permutation_in _ (Permutation_sym Hp)), in_seq. lia.
Qed.

(** A new route of the customers [del kii (sr_set r) ++ inc] *)
Lemma new_route (routed : nat -> bool) r kii inc tour cost dem : NoDup (sr_set r) -> incl (sr_set r) order -> (forall x, In x (sr_set r) -> routed x = true) -> In kii (sr_set r) ->
  inc <> [] -> NoDup inc -> (forall x, In x inc -> In x order /\ routed x = false) ->
  tsp D (0%nat :: del kii (sr_set r) ++ inc) = (tour, cost) -> gm_fits ceps seps C L cost dem = true ->
  (is_set C = true -> dem = demand d (del kii (sr_set r) ++ inc)) ->
  let r' := mkswr tour cost dem (del kii (sr_set r) ++ inc) in
  toured r' /\ carries r' /\ within C ceps (demand d (sr_set r')) /\ within L seps (sr_cost r') /\ sr_cost r' = snd (tsp D (0%nat :: sr_set r')).
Proof using Hf Hp.
  intros H1 H2 H3 H4 H5 H6 H7 E HF HD. cbv zeta. apply fits_both in HF. destruct HF as (F1 & F2 & F3 & F4).
  specialize (HD F1). subst dem. cbn [sr_set sr_cost].
  assert (Hi : forall x, In x (del kii (sr_set r) ++ inc) -> In x order).
  { intros x Hx. apply in_app_or in Hx. destruct Hx as [Hx|Hx]; [apply del_in in Hx; apply H2, Hx|apply H7, Hx]. }
  assert (Hn : NoDup (del kii (sr_set r) ++ inc)).
  { assert (G : NoDup (del kii (sr_set r))) by (apply NoDup_filter, H1).
    assert (Gd : forall x, In x (del kii (sr_set r)) -> ~ In x inc).
    { intros x Hx Hy. apply del_in in Hx. destruct Hx as (Hx & _). apply H3 in Hx. apply H7 in Hy. destruct Hy. congruence. }
    revert G Gd. generalize (del kii (sr_set r)). intros l. induction l as [|a l IH]; intros G Gd; [exact H6|].
    inversion G; subst. cbn [app]. constructor.
    - intros Hx. apply in_app_or in Hx. destruct Hx as [Hx|Hx]; [easy|]. apply (Gd a (or_introl eq_refl) Hx).
    - apply IH; [assumption|]. intros x Hx. apply Gd. now right. }
  destruct (Hf (del kii (sr_set r) ++ inc)) as (l' & El & Hl).
  - intros E0. apply app_eq_nil in E0. now destruct E0.
  - exact Hn.
  - intros j Hj. apply in_order, Hi, Hj.
  - assert (E' := E). rewrite El in E. injection E as <- <-. split; [exists l'; cbn; auto|]. split; [intros _; reflexivity|]. split; [assumption|]. split; [assumption|]. now rewrite E'.
Qed.

Lemma callback_contract ccw score routed r pos : (pos < len)%nat -> sr_set r <> [] -> NoDup (sr_set r) -> incl (sr_set r) order ->
  carries r -> (forall x, In x (sr_set r) -> routed x = true) -> routed 0%nat = true ->
  contract (tsp D) routed r (node_at order pos) (gm_callback ceps seps N D d C L tsp order ccw score routed r pos).
Proof using Hf Hp.
  intros Hpos Hne Hnd Hi Hc Hr H0. unfold gm_callback. set (J := node_at order pos).
  assert (HJ : In J order) by (apply node_at_in, Hpos).
  destruct (routed J) eqn:EJ; [left; reflexivity|].
  destruct (gm_remove score (sr_set r)) as [kii|] eqn:Ek; [|left; reflexivity]. apply gm_remove_in in Ek.
  destruct (find _ _) as [jjx|] eqn:Ex.
  2:{ exfalso. assert (G := find_none _ _ Ex J). cbn beta in G. rewrite EJ in G. cbn in G. assert (true = false); [|easy]. apply G.
      apply nn_row_in. apply in_order in HJ. lia. }
  apply find_some in Ex. destruct Ex as (Ex1 & Ex2). apply negb_true_iff in Ex2. apply nn_row_in in Ex1.
  assert (Hx : In jjx order). { apply in_order. destruct jjx; [congruence|lia]. }
  set (jii := find _ (nn_row N D jjx)).
  assert (Hjii : forall ji, jii = Some ji -> In ji order /\ routed ji = false /\ ji <> jjx).
  { intros ji E. apply find_some in E. destruct E as (E1 & E2). apply andb_true_iff in E2. destruct E2 as (E2 & E3).
    apply negb_true_iff in E2, E3. apply Nat.eqb_neq in E3. apply nn_row_in in E1. split; [|auto]. apply in_order. destruct ji; [congruence|lia]. }
  destruct (tsp D (0%nat :: del kii (sr_set r) ++ [jjx])) as (tour2, d2) eqn:E2.
  set (dem2 := if is_set C then sr_demand r - d kii + d jjx else 0).
  assert (HD2 : is_set C = true -> dem2 = demand d (del kii (sr_set r) ++ [jjx])).
  { intros HC. unfold dem2. rewrite HC, (Hc HC), (demand_perm d _ _ (del_perm kii (sr_set r) Hnd Ek)), demand_cons, demand_app, demand_cons.
    change (demand d []) with 0. lia. }
  destruct (gm_fits ceps seps C L d2 dem2) eqn:EF2; cbn [negb]; [|left; reflexivity].
  destruct (gm_lookahead _ _ _ _ _ _ _ _ _ _ _ _ _ _) as (((((n3, n4), n6), jjx_in), jii_in), lpos).
  destruct jjx_in; cbn [negb]; [|left; reflexivity].
  match goal with |- context [negb ?b] => destruct b end; cbn [negb].
  - (* two *)
    destruct jii as [ji|] eqn:Eji; [|left; reflexivity]. destruct jii_in; [|left; reflexivity].
    destruct (Hjii ji eq_refl) as (G1 & G2 & G3).
    destruct (tsp D (0%nat :: (del kii (sr_set r) ++ [jjx]) ++ [ji])) as (tour5, d5) eqn:E5.
    set (dem5 := if is_set C then dem2 + d ji else 0).
    destruct (gm_fits ceps seps C L d5 dem5) eqn:EF5; cbn [negb]; [|left; reflexivity].
    match goal with |- context [if ?b then (r, [], [], true) else _] => destruct b end; [left; reflexivity|].
    right. split; [exact EJ|].
    exists (mkswr tour5 d5 dem5 ((del kii (sr_set r) ++ [jjx]) ++ [ji])), kii, [jjx; ji].
    assert (HI : forall x, In x [jjx; ji] -> In x order /\ routed x = false) by (intros x [<-|[<-|[]]]; auto).
    assert (HN : NoDup [jjx; ji]). { constructor; [intros [E|[]]; congruence|]. constructor; [easy|constructor]. }
    rewrite <- app_assoc in *. cbn [app] in *.
    assert (HD5 : is_set C = true -> dem5 = demand d (del kii (sr_set r) ++ [jjx; ji])).
    { intros HC. unfold dem5. rewrite HC, (HD2 HC), !demand_app, !demand_cons. change (demand d []) with 0. lia. }
    split.
    { unfold mem. cbn [existsb]. rewrite (Nat.eqb_sym jjx J), (Nat.eqb_sym ji J), Bool.orb_false_r. reflexivity. }
    split; [exact Ek|]. split; [discriminate|]. split; [exact HN|]. split; [exact HI|]. split; [reflexivity|].
    exact (new_route routed r kii [jjx; ji] tour5 d5 dem5 Hnd Hi Hr Ek ltac:(discriminate) HN HI E5 EF5 HD5).
  - right. split; [exact EJ|]. exists (mkswr tour2 d2 dem2 (del kii (sr_set r) ++ [jjx])), kii, [jjx].
    assert (HI : forall x, In x [jjx] -> In x order /\ routed x = false) by (intros x [<-|[]]; auto).
    assert (HN : NoDup [jjx]) by (constructor; [easy|constructor]).
    split.
    { unfold mem. cbn [existsb]. rewrite (Nat.eqb_sym jjx J), Bool.orb_false_r. reflexivity. }
    split; [exact Ek|]. split; [discriminate|]. split; [exact HN|]. split; [exact HI|]. split; [reflexivity|].
    exact (new_route routed r kii [jjx] tour2 d2 dem2 Hnd Hi Hr Ek ltac:(discriminate) HN HI E2 EF2 HD2).
Qed.
End Callback.

(** ** The main loop, for any callback that keeps to the contract *)
Section Loop.
Variables ceps seps : Z.
Variable N : nat.
Variable D : matrix.
Variable d : demands.
Variables C L : limit.
Variable f : routing.
Variable order : list nat.
Variable ccw : bool.
Variable callback : swroute -> nat -> (nat -> bool) -> callback_result.
Hypothesis Hf : solver N D f.
Hypothesis Halone : served_alone N D d C L ceps seps.
Hypothesis Hnd : NoDup order.
Hypothesis Hcust : forall x, In x order -> (1 <= x < N)%nat.
Hypothesis Hd : forall i, (1 <= i < N)%nat -> 0 <= d i.
Notation len := (length order).
Notation carries := (carries d C).
Notation toured := (toured D).
Notation marked := (marked ceps seps D d C L order).
Hypothesis Hcb : forall routed r pos, (pos < len)%nat -> sr_set r <> [] -> NoDup (sr_set r) -> incl (sr_set r) order ->
  carries r -> (forall x, In x (sr_set r) -> routed x = true) -> routed 0%nat = true ->
  contract ceps seps D d C L order f routed r (node_at order pos) (callback r pos routed).

Record gm_inv (gst : gmstate) (rs : list (list nat)) : Prop := {
  gi_marked : marked (sw_routes (gm_sw gst)) rs (sw_routed (gm_sw gst)) (sw_count (gm_sw gst)) (sw_current (gm_sw gst));
  gi_depot : sw_routed (gm_sw gst) 0%nat = true;
  gi_pos : (sw_pos (gm_sw gst) < len)%nat;
  gi_node : match sw_node (gm_sw gst) with
            | Some x => sw_complete (gm_sw gst) = false /\ x = node_at order (sw_pos (gm_sw gst)) /\
                        ~ In x (concat rs ++ sr_set (sw_current (gm_sw gst))) /\ ~ In x (gm_blocked gst)
            | None => sw_complete (gm_sw gst) = true /\ sr_set (sw_current (gm_sw gst)) <> [] /\ gm_blocked gst = []
            end;
  gi_blocked : sr_set (sw_current (gm_sw gst)) = [] -> gm_blocked gst = [] }.

Lemma next_blocked (p : nat -> bool) pos : (pos < len)%nat ->
  let '(pos', x) := next_unrouted order ccw len pos pos p in
  (pos' < len)%nat /\ match x with
    | Some y => y = node_at order pos' /\ p y = false
    | None => pos' = pos /\ forall y, In y order -> p y = true
    end.
Proof using Hcust. exact (next_unrouted_ok N order ccw Hcust p pos). Qed.

Lemma gm_proceed_ok pos node routes rs routed count r bound blocked :
  marked routes rs routed count r -> routed 0%nat = true -> (pos < len)%nat ->
  match node with
  | Some x => In x order /\ (In x (sr_set r) \/ (~ In x (concat rs ++ sr_set r) /\ within C ceps (demand d (sr_set r) + d x)))
  | None => sr_set r <> []
  end -> (sr_set r = [] -> blocked = []) ->
  let gst := gm_proceed D d C L order ccw pos node routes routed count r bound blocked in
  gm_inv gst rs /\
  sr_set (sw_current (gm_sw gst)) = sr_set r ++ match node with Some x => if mem x (sr_set r) then [] else [x] | None => [] end.
Proof using Hnd Hcust.
  intros [M1 M2 M3 M4 M5 M6 M7] H0 Hp Hnode Hbl. cbv zeta. unfold gm_proceed.
  assert (Hplain : sr_set r <> [] ->
    (let '(pos', node') := next_unrouted order ccw len pos pos (fun x => routed x || mem x blocked) in
     gm_inv (mkgm (mksw pos' node' routes routed count r bound (match node' with None => true | Some _ => false end))
       (match node' with None => [] | Some _ => blocked end)) rs)).
  { intros Hne. assert (Hn := next_blocked (fun x => routed x || mem x blocked) pos Hp).
    destruct (next_unrouted order ccw len pos pos _) as (pos' & node'). destruct Hn as (Hp' & Hn).
    constructor; cbn [gm_sw gm_blocked sw_routes sw_routed sw_count sw_current sw_pos sw_node sw_complete].
    - constructor; assumption.
    - exact H0.
    - exact Hp'.
    - destruct node' as [y|].
      + destruct Hn as (-> & Hr). apply Bool.orb_false_iff in Hr. destruct Hr as (Hr1 & Hr2). split; [reflexivity|]. split; [reflexivity|].
        rewrite (M4 _ (node_at_in order pos' Hp')) in Hr1. split; apply mem_false; assumption.
      + auto.
    - easy. }
  destruct node as [x|].
  - destruct Hnode as (Hx & [Hxr|(Hxn & HxC)]).
    + assert (Er : routed x = true). { rewrite (M4 x Hx). apply mem_in, in_or_app. now right. }
      rewrite Er. cbn [negb]. rewrite (proj2 (mem_in x (sr_set r)) Hxr), app_nil_r.
      assert (Hne : sr_set r <> []) by (intros E; rewrite E in Hxr; easy). specialize (Hplain Hne).
      destruct (next_unrouted order ccw len pos pos _) as (pos' & node'). split; [exact Hplain|reflexivity].
    + rewrite (M4 x Hx). rewrite (proj2 (mem_false x _) Hxn). cbn [negb].
      set (routed' := upd routed x true).
      assert (Hn := next_blocked (fun y => routed' y || mem y blocked) pos Hp).
      destruct (next_unrouted order ccw len pos pos (fun y => routed' y || mem y blocked)) as (pos' & node'). destruct Hn as (Hp' & Hn).
      assert (Hxr : mem x (sr_set r) = false). { apply mem_false. intros Hin. apply Hxn, in_or_app. now right. }
      rewrite Hxr.
      assert (Hm : forall y, In y order -> routed' y = mem y (concat rs ++ sr_set r ++ [x])).
      { intros y Hy. unfold routed', upd. destruct (Nat.eqb_spec y x) as [->|Hyx].
        - symmetry. apply mem_in. apply in_or_app. right. apply in_or_app. right. now left.
        - rewrite (M4 y Hy), !mem_app. cbn [mem existsb]. destruct (Nat.eqb_spec y x); [easy|]. now rewrite !Bool.orb_false_r. }
      split; [|reflexivity]. constructor; cbn [gm_sw gm_blocked sw_routes sw_routed sw_count sw_current sw_pos sw_node sw_complete sr_set add_node].
      * constructor; cbn [sr_set add_node].
        -- exact M1.
        -- rewrite app_assoc. apply Permutation_NoDup with (x :: (concat rs ++ sr_set r)); [apply Permutation_cons_append|]. constructor; assumption.
        -- rewrite app_assoc. intros y Hy. apply in_app_or in Hy. destruct Hy as [Hy|[<-|[]]]; [apply M3, Hy|exact Hx].
        -- exact Hm.
        -- exact M5.
        -- intros HC. unfold add_node. cbn [sr_demand sr_set]. rewrite HC, (M6 HC), demand_snoc. reflexivity.
        -- intros _. rewrite demand_snoc. exact HxC.
      * unfold routed', upd. rewrite H0. now destruct (0 =? x)%nat.
      * exact Hp'.
      * destruct node' as [y|].
        -- destruct Hn as (-> & Hr). apply Bool.orb_false_iff in Hr. destruct Hr as (Hr1 & Hr2). split; [reflexivity|]. split; [reflexivity|].
           rewrite (Hm _ (node_at_in order pos' Hp')) in Hr1. split; apply mem_false; assumption.
        -- split; [reflexivity|]. split; [|reflexivity]. intros E; apply app_eq_nil in E; destruct E; discriminate.
      * intros E; apply app_eq_nil in E; destruct E; discriminate.
  - specialize (Hplain Hnode). destruct (next_unrouted order ccw len pos pos _) as (pos' & node'). split; [exact Hplain|]. cbn [gm_sw sw_current]. now rewrite app_nil_r.
Qed.

Lemma sub_disjoint (rs : list (list nat)) s x : NoDup (concat rs ++ s) -> In x s -> ~ In x (concat rs).
Proof using Type.
  intros H1 H2 H3. induction (concat rs) as [|a l IH]; [easy|]. inversion H1; subst. destruct H3 as [->|H3].
  - apply H4. apply in_or_app. now right.
  - apply IH; assumption.
Qed.

(** The route after the check of L: what [ensure_L] has made of [cur1] *)
Definition after_L (st : swstate) (fuel p : nat) (r : swroute) (routed : nat -> bool) : Prop :=
  (is_set L = false /\ p = sw_pos st /\ r = routed_by_f f (sw_current st) /\ routed = sw_routed st) \/
  ensure_L seps d C L f order ccw fuel (sw_pos st) (sw_pos st) (routed_by_f f (sw_current st)) (sw_routed st) = Some (p, r, routed).

Definition closes (st : swstate) (rs : list (list nat)) (g : gmstate) : Prop :=
  exists pos node routes routed count rs', g = gm_proceed D d C L order ccw pos node routes routed count sr_new 0 [] /\
    marked routes rs' routed count sr_new /\ routed 0%nat = true /\ (pos < len)%nat /\
    match node with Some x => x = node_at order pos /\ ~ In x (concat rs') | None => True end /\
    (length (concat rs) < length (concat rs') < len)%nat.
Definition adds (gst : gmstate) (rs : list (list nat)) (g : gmstate) : Prop :=
  exists x bound, let st := gm_sw gst in
    g = gm_proceed D d C L order ccw (sw_pos st) (Some x) (sw_routes st) (sw_routed st) (sw_count st) (sw_current st) bound (gm_blocked gst) /\
    sw_node st = Some x /\ within C ceps (demand d (sr_set (sw_current st)) + d x).
Definition swaps (fuel : nat) (gst : gmstate) (rs : list (list nat)) (g : gmstate) : Prop :=
  exists p r2 routed2 r' kii inc routed3, let st := gm_sw gst in let J := node_at order p in
    after_L st fuel p r2 routed2 /\ sw_node st <> None /\ routed2 J = false /\ (p < len)%nat /\
    (forall x, In x order -> routed2 x = mem x (concat rs ++ sr_set r2)) /\ incl (sr_set r2) (sr_set (sw_current st)) /\
    swapped ceps seps D d C L order f routed2 r2 J (r', inc, kii :: (if mem J inc then [] else [J]), false) /\
    In kii (sr_set r2) /\ (forall x, In x inc -> In x order /\ routed2 x = false) /\ sr_set r' = del kii (sr_set r2) ++ inc /\
    marked (sw_routes st) rs routed3 (sw_count st) r' /\ routed3 0%nat = true /\ toured r' /\ within L seps (sr_cost r') /\
    g = gm_proceed D d C L order ccw p (if mem J inc then Some J else None) (sw_routes st) routed3 (sw_count st) r' (sr_cost r')
          ((kii :: (if mem J inc then [] else [J])) ++ gm_blocked gst).

Lemma iter_cases fuel gst rs : (len * S len <= fuel)%nat -> gm_inv gst rs ->
  (exists routes, gm_iter ceps seps D d C L f order ccw callback fuel gst = Some (inl routes) /\ sw_done ceps seps D d C L order routes) \/
  (exists g, gm_iter ceps seps D d C L f order ccw callback fuel gst = Some (inr g) /\ (closes (gm_sw gst) rs g \/ adds gst rs g \/ swaps fuel gst rs g)).
Proof using Hf Halone Hnd Hcust Hd Hcb.
  intros Hfuel [[M1 M2 M3 M4 M5 M6 M7] H0 Hp Hnode Hbl]. set (st := gm_sw gst) in *.
  assert (Hnds : NoDup (sr_set (sw_current st))) by (apply NoDup_app_remove_l in M2; exact M2).
  assert (His : incl (sr_set (sw_current st)) order) by (intros x Hx; apply M3; apply in_or_app; now right).
  assert (Hlu : (length (concat rs ++ sr_set (sw_current st)) <= len)%nat) by (apply NoDup_incl_length; assumption).
  unfold gm_iter. fold st. set (cur := sw_current st) in *.
  match goal with |- context [sw_complete st || ?m] => set (complete1 := sw_complete st || m) end.
  match goal with |- context [let '(bound1, complete2) := ?m in _] => set (second := m) end.
  destruct second as (bound1, complete2) eqn:E2. unfold second in E2. clear second.
  assert (Hclose : complete2 = true -> sr_set cur <> []).
  { intros ->. destruct (sw_node st) as [x|]; [|tauto].
    destruct Hnode as (Hc & Hx & Hxn & _). unfold complete1 in E2. rewrite Hc, (carries_exceeds ceps d C cur _ M6) in E2. cbn [orb] in E2.
    intros Hs. rewrite Hs in E2. change (demand d []) with 0 in E2. cbn [app] in E2.
    assert (HxO : In x order) by (rewrite Hx; apply node_at_in; exact Hp).
    destruct (Halone x (Hcust x HxO)) as (A1 & A2). rewrite demand_cons in A1. change (demand d []) with 0 in A1.
    rewrite Z.add_comm in A1. rewrite (proj2 (exceeds_within _ _ _) A1) in E2. cbn [negb andb] in E2.
    destruct (exceeds L 0 (sw_bound st)); [|congruence].
    destruct (Hf [x]) as (l' & El & Hl); [easy|repeat constructor; easy|intros j [<-|[]]; apply Hcust, HxO|].
    rewrite El in E2. cbn [snd] in E2. apply Permutation_sym, Permutation_length_1_inv in Hl. subst l'.
    injection E2 as _ E2. apply exceeds_true in E2. apply E2, A2. }
  assert (Hkeep : complete2 = false -> exists x, sw_node st = Some x /\ within C ceps (demand d (sr_set cur) + d x)).
  { intros ->. destruct (sw_node st) as [x|].
    - exists x. destruct Hnode as (Hc & Hx & Hxn & _). split; [reflexivity|].
      unfold complete1 in E2. rewrite Hc, (carries_exceeds ceps d C cur _ M6) in E2. cbn [orb] in E2. apply exceeds_within.
      destruct (exceeds C ceps (demand d (sr_set cur) + d x)); [|reflexivity]. cbn in E2. congruence.
    - exfalso. destruct Hnode as (Hc & _). unfold complete1 in E2. rewrite Hc in E2. cbn in E2. congruence. }
  destruct complete2.
  2:{ destruct (Hkeep eq_refl) as (x & Ex & HxC). rewrite Ex. right. eexists. split; [reflexivity|]. right. left. exists x, bound1. cbv zeta. fold st. fold cur. auto. }
  assert (Hne := Hclose eq_refl). clear Hclose Hkeep.
  destruct (routed_by_f_ok N D f order Hf Hcust cur Hne Hnds His) as (T1 & T2 & T3 & T4 & T5).
  set (cur1 := routed_by_f f cur) in *.
  assert (HCcur : within C ceps (demand d (sr_set cur))) by (apply M7, Hne).
  assert (Hcar : carries cur1). { intros HC. rewrite T2, T3. apply M6, HC. }
  match goal with |- context [match ?m with Some _ => _ | None => None end] => set (ensured := m) end.
  assert (HE : exists pos node cur2 routed, ensured = Some (pos, node, cur2, routed) /\ after_L st fuel pos cur2 routed /\
     toured cur2 /\ sr_set cur2 <> [] /\ carries cur2 /\ within C ceps (demand d (sr_set cur2)) /\ within L seps (sr_cost cur2) /\
     NoDup (concat rs ++ sr_set cur2) /\ incl (sr_set cur2) (sr_set cur) /\
     (forall x, In x order -> routed x = mem x (concat rs ++ sr_set cur2)) /\ routed 0%nat = true /\ (pos < len)%nat /\
     match node with Some x => x = node_at order pos /\ ~ In x (concat rs ++ sr_set cur2) /\ sw_node st <> None | None => True end).
  { unfold ensured. destruct (is_set L) eqn:HL.
    - destruct (sr_set cur) as [|y t] eqn:Es; [easy|]. rewrite <- Es in *.
      destruct (in_node_at order y (His y ltac:(rewrite Es; now left))) as (q & Hq & Eq).
      destruct (reach (negb ccw) len (sw_pos st) q Hp Hq) as (j & Hj & Ej).
      destruct (ensure_ok ceps seps N D d C L f order ccw Hf Halone Hcust fuel (sw_pos st) (sw_pos st) cur1 (sw_routed st))
        as (fp & r & routed & EE & G1 & G2 & G3 & G4 & G5 & G6 & G7 & G8); rewrite ?T2; try assumption.
      { exists j. split; [lia|]. split; [|rewrite Ej, Eq, Es; now left].
        assert (length (sr_set cur) <= len)%nat by (rewrite app_length in Hlu; lia). nia. }
      rewrite EE. rewrite T2 in *.
      assert (HAL : after_L st fuel fp r routed) by (right; exact EE).
      assert (Hmk : forall x, In x order -> routed x = mem x (concat rs ++ sr_set r)).
      { intros x Hx. rewrite G7, (M4 x Hx), !mem_app. fold cur.
        destruct (mem x (sr_set cur)) eqn:E3, (mem x (sr_set r)) eqn:E4; cbn [andb negb]; try reflexivity.
        - rewrite Bool.orb_false_r. symmetry. apply mem_false. apply mem_in in E3. exact (sub_disjoint rs _ x M2 E3).
        - exfalso. apply mem_in, G4, mem_in in E4. congruence. }
      assert (HC2 : within C ceps (demand d (sr_set r))).
      { refine (within_less _ _ _ _ (demand_incl _ _ _ G3 Hnds G4 _) HCcur). intros x Hx. apply Hd, Hcust, His, Hx. }
      assert (Hr0 : routed 0%nat = true).
      { rewrite G7. replace (mem 0%nat (sr_set cur)) with false; [exact H0|]. symmetry. apply mem_false. intros Hin. apply His, Hcust in Hin. lia. }
      assert (Hndr := nodup_used rs _ _ M2 G3 G4).
      destruct (Nat.eqb_spec fp (sw_pos st)) as [Efp|Efp].
      + exists (sw_pos st), (sw_node st), r, routed. split; [reflexivity|]. split; [rewrite Efp in HAL; exact HAL|]. do 10 (split; [assumption|]).
        destruct (sw_node st) as [x|]; [|easy]. destruct Hnode as (_ & Hx & Hxn & _). split; [exact Hx|]. split; [|discriminate].
        intros Hin. apply Hxn. apply in_app_or in Hin. apply in_or_app. destruct Hin as [Hin|Hin]; [now left|right; apply G4, Hin].
      + destruct G8 as [(G8 & _)|(G8 & G9 & G10)]; [easy|].
        exists fp, (match sw_node st with Some _ => Some (node_at order fp) | None => None end), r, routed. split; [reflexivity|]. split; [exact HAL|]. do 10 (split; [assumption|]).
        destruct (sw_node st) as [x|]; [|easy]. split; [reflexivity|]. split; [|discriminate]. apply mem_false. rewrite mem_app.
        rewrite (proj2 (mem_false _ _) G10), Bool.orb_false_r. apply mem_false. exact (sub_disjoint rs _ _ M2 G9).
    - exists (sw_pos st), (sw_node st), cur1, (sw_routed st). rewrite T2. split; [reflexivity|]. split; [left; auto|].
      split; [exact T1|]. split; [exact Hne|]. split; [exact Hcar|]. split; [exact HCcur|]. split; [apply unset_within, HL|].
      split; [exact M2|]. split; [apply incl_refl|]. split; [exact M4|]. split; [exact H0|]. split; [exact Hp|].
      destruct (sw_node st) as [x|]; [|easy]. destruct Hnode as (_ & Hx & Hxn & _). split; [exact Hx|]. split; [exact Hxn|discriminate]. }
  destruct HE as (pos & node & cur2 & routed & EE & HAL & F1 & F2 & F3 & F4 & F5 & F6 & F7 & F8 & F9 & F10 & F11). rewrite EE. clear ensured EE.
  assert (Hl2 : (0 < length (sr_set cur2))%nat) by (destruct (sr_set cur2); [easy|cbn; lia]).
  assert (HI2 : incl (concat rs ++ sr_set cur2) order).
  { intros x Hx. apply in_app_or in Hx. apply M3, in_or_app. destruct Hx as [Hx|Hx]; [now left|right; apply F7, Hx]. }
  (* the route is closed as it is *)
  assert (Hcl : forall res : list swroute + gmstate,
     res = (let routes := if (0 <? length (sr_set cur2))%nat then sw_routes st ++ [cur2] else sw_routes st in
          let count := (sw_count st + length (sr_set cur2))%nat in
          if (length order <=? count)%nat then inl routes
          else inr (gm_proceed D d C L order ccw pos node routes routed count sr_new 0 [])) ->
     match res with inl routes => sw_done ceps seps D d C L order routes | inr g => closes st rs g end).
  { intros res ->. cbv zeta. destruct (Nat.ltb_spec 0 (length (sr_set cur2))); [|lia].
    destruct F1 as (l & F1a & F1b & F1c).
    assert (Hpm : Permutation (concat (rs ++ [l])) (concat rs ++ sr_set cur2)). { rewrite concat_snoc. apply Permutation_app_head, F1c. }
    assert (HFF : Forall2 (finished ceps seps D d C L) (sw_routes st ++ [cur2]) (rs ++ [l])).
    { apply forall2_snoc; [exact M1|]. split; [exact F1a|]. split; [intros ->; apply Permutation_nil in F1c; easy|].
      split; [now rewrite (demand_perm d l _ F1c)|]. now rewrite <- F1b. }
    destruct (Nat.leb_spec len (sw_count st + length (sr_set cur2))) as [Hle|Hgt].
    - exists (rs ++ [l]). split; [exact HFF|]. eapply Permutation_trans; [exact Hpm|].
      apply NoDup_Permutation_bis; [exact F6| |exact HI2]. rewrite app_length. lia.
    - exists pos, node, (sw_routes st ++ [cur2]), routed, (sw_count st + length (sr_set cur2))%nat, (rs ++ [l]).
      split; [reflexivity|]. split; [|split; [exact F9|split; [exact F10|split]]].
      + constructor; cbn [sr_set sr_new]; rewrite ?app_nil_r.
        * exact HFF.
        * eapply Permutation_NoDup; [apply Permutation_sym, Hpm|exact F6].
        * intros x Hx. apply HI2. eapply Permutation_in; [exact Hpm|exact Hx].
        * intros x Hx. rewrite (F8 x Hx). symmetry. apply mem_perm, Hpm.
        * rewrite (Permutation_length Hpm), app_length, M5. reflexivity.
        * intros _. reflexivity.
        * easy.
      + destruct node as [x|]; [|exact I]. destruct F11 as (Hx & Hxn & _). split; [exact Hx|]. intros Hin. apply Hxn. eapply Permutation_in; [exact Hpm|exact Hin].
      + rewrite (Permutation_length Hpm), app_length. lia. }
  destruct node as [J|].
  2:{ cbn [fold_left app mem existsb]. cbv zeta in *. destruct (len <=? _)%nat.
      - left. eexists. split; [reflexivity|]. exact (Hcl _ eq_refl).
      - right. eexists. split; [reflexivity|]. left. exact (Hcl _ eq_refl). }
  destruct F11 as (EJ & HJn & Hnn).
  assert (Hndr2 : NoDup (sr_set cur2)) by (apply NoDup_app_remove_l in F6; exact F6).
  assert (Hio2 : incl (sr_set cur2) order) by (intros x Hx; apply HI2, in_or_app; now right).
  assert (Hrt2 : forall x, In x (sr_set cur2) -> routed x = true).
  { intros x Hx. rewrite (F8 x (Hio2 x Hx)). apply mem_in, in_or_app. now right. }
  destruct (Hcb routed cur2 pos F10 F2 Hndr2 Hio2 F3 Hrt2 F9) as [Ecb|(ErJ & Hsw)].
  - rewrite Ecb. cbn [fold_left app mem existsb]. cbv zeta in *. destruct (len <=? _)%nat.
    + left. eexists. split; [reflexivity|]. exact (Hcl _ eq_refl).
    + right. eexists. split; [reflexivity|]. left. exact (Hcl _ eq_refl).
  - assert (Hsw2 := Hsw). destruct Hsw2 as (r' & kii & inc & Ecb & S1 & S2 & S3 & S4 & S5 & S6 & S7 & S8 & S9 & S10). rewrite <- EJ in *.
    rewrite Ecb in *. cbv zeta. right. eexists. split; [reflexivity|]. right. right.
    assert (HJo : In J order) by (rewrite EJ; apply node_at_in, F10).
    assert (HkJ : kii <> J). { intros ->. apply Hrt2 in S1. congruence. }
    assert (Hnode3 : (if mem J (kii :: (if mem J inc then [] else [J])) then None else Some J) = (if mem J inc then Some J else None)).
    { unfold mem at 1. cbn [existsb]. destruct (Nat.eqb_spec J kii); [congruence|]. cbn [orb]. destruct (mem J inc); cbn [existsb]; [reflexivity|]. now rewrite Nat.eqb_refl. }
    rewrite Hnode3.
    set (routed3 := fold_left _ (kii :: _) _).
    assert (Hr3 : forall x, routed3 x = if mem x (kii :: (if mem J inc then [] else [J])) then false else if mem x inc then true else routed x).
    { intros x. unfold routed3. rewrite fold_upd. now rewrite fold_upd. }
    assert (Hdis : forall x, In x inc -> ~ In x (concat rs ++ sr_set cur2)).
    { intros x Hx. destruct (S4 x Hx) as (S4a & S4b). rewrite (F8 x S4a) in S4b. apply mem_false, S4b. }
    assert (Hincl' : forall x, In x (concat rs ++ sr_set r') -> In x order).
    { intros x Hx. rewrite S5 in Hx. apply in_app_or in Hx. destruct Hx as [Hx|Hx]; [apply HI2, in_or_app; now left|].
      apply in_app_or in Hx. destruct Hx as [Hx|Hx]; [apply del_in in Hx; apply Hio2, Hx|apply S4, Hx]. }
    assert (Hmk' : marked (sw_routes st) rs routed3 (sw_count st) r').
    { constructor.
      - exact M1.
      - rewrite S5. assert (G : NoDup (concat rs ++ del kii (sr_set cur2))).
        { apply (nodup_used rs (sr_set cur2)); [exact F6|apply NoDup_filter, Hndr2|]. intros x Hx. apply del_in in Hx. apply Hx. }
        rewrite app_assoc. revert G.
        assert (Gd : forall x, In x (concat rs ++ del kii (sr_set cur2)) -> ~ In x inc).
        { intros x Hx Hy. apply (Hdis x Hy). apply in_app_or in Hx. apply in_or_app. destruct Hx as [Hx|Hx]; [now left|]. apply del_in in Hx. right. apply Hx. }
        revert Gd. generalize (concat rs ++ del kii (sr_set cur2)). intros l. induction l as [|a l IH]; intros Gd G; [exact S3|].
        inversion G; subst. cbn [app]. constructor.
        + intros Hx. apply in_app_or in Hx. destruct Hx as [Hx|Hx]; [easy|]. apply (Gd a (or_introl eq_refl) Hx).
        + apply IH; [|assumption]. intros x Hx. apply Gd. now right.
      - exact Hincl'.
      - intros x Hx. rewrite Hr3. unfold mem at 1. cbn [existsb]. fold (mem x (if mem J inc then [] else [J])).
        destruct (Nat.eqb_spec x kii) as [->|Hxk].
        + cbn [orb]. symmetry. apply mem_false. rewrite S5. intros Hin. apply in_app_or in Hin. destruct Hin as [Hin|Hin].
          * exact (sub_disjoint rs _ kii F6 S1 Hin).
          * apply in_app_or in Hin. destruct Hin as [Hin|Hin]; [apply del_in in Hin; easy|]. apply S4 in Hin. apply Hrt2 in S1. destruct Hin. congruence.
        + cbn [orb]. rewrite S5, !mem_app. replace (mem x (del kii (sr_set cur2))) with (mem x (sr_set cur2)).
          2:{ apply Bool.eq_iff_eq_true. rewrite !mem_in, del_in. tauto. }
          rewrite Bool.orb_assoc, <- mem_app, <- (F8 x Hx).
          destruct (mem x (if mem J inc then [] else [J])) eqn:EJx.
          * destruct (mem J inc) eqn:EJi; [discriminate|]. unfold mem in EJx. cbn [existsb] in EJx. rewrite Bool.orb_false_r in EJx. apply Nat.eqb_eq in EJx. subst x.
            now rewrite ErJ, EJi.
          * destruct (mem x inc); [now rewrite Bool.orb_true_r|now rewrite Bool.orb_false_r].
      - exact M5.
      - exact S7.
      - intros _. exact S8. }
    assert (Hr30 : routed3 0%nat = true).
    { rewrite Hr3. replace (mem 0%nat (kii :: _)) with false.
      - destruct (mem 0%nat inc); [reflexivity|exact F9].
      - symmetry. apply mem_false. intros [E|E].
        + subst kii. apply Hio2, Hcust in S1. lia.
        + destruct (mem J inc); [easy|]. destruct E as [E|[]]. subst J. rewrite E in HJo. apply Hcust in HJo. lia. }
    exists pos, cur2, routed, r', kii, inc, routed3. cbv zeta. rewrite <- EJ.
    repeat (split; [assumption|]). reflexivity.
Qed.

(** The invariant is kept *)
Lemma closes_inv pos node routes routed count rs' : marked routes rs' routed count sr_new -> routed 0%nat = true -> (pos < len)%nat ->
  match node with Some x => x = node_at order pos /\ ~ In x (concat rs') | None => True end -> (length (concat rs') < len)%nat ->
  gm_inv (gm_proceed D d C L order ccw pos node routes routed count sr_new 0 []) rs'.
Proof using Halone Hnd Hcust.
  intros H1 H2 H3 H4 H5. destruct node as [x|].
  - destruct H4 as (Hx & Hxn). assert (HxO : In x order) by (rewrite Hx; apply node_at_in, H3). apply gm_proceed_ok; try assumption; [|reflexivity]. split; [exact HxO|].
    right. cbn [sr_set sr_new]. rewrite app_nil_r. split; [exact Hxn|].
    destruct (Halone x (Hcust x HxO)) as (HC & _). rewrite demand_cons in HC. change (demand d []) with 0 in *. rewrite Z.add_comm in HC. exact HC.
  - rewrite proceed_plain. assert (HP := proceed_ok ceps seps N D d C L order ccw Hnd Hcust pos None routes rs' routed count sr_new 0 H1 H3).
    cbn [sr_set sr_new] in HP. rewrite app_nil_r in HP. destruct (HP H5) as ([P1 P2 P3] & P4).
    constructor; cbn [gm_sw gm_blocked]; [exact P1| |exact P2| |reflexivity].
    + unfold sw_proceed. destruct (next_unrouted _ _ _ _ _ _). exact H2.
    + destruct (sw_node _) as [y|]; [|tauto]. destruct P3 as (P3a & P3b & P3c). auto.
Qed.
Lemma adds_inv gst rs g : gm_inv gst rs -> adds gst rs g -> gm_inv g rs.
Proof using Hnd Hcust.
  intros [HI1 HI2 HI3 HI4 HI5] (x & bound & -> & H1 & H2). rewrite H1 in HI4. destruct HI4 as (G1 & G2 & G3 & G4).
  apply gm_proceed_ok; [exact HI1|exact HI2|exact HI3| |exact HI5]. split; [rewrite G2; apply node_at_in, HI3|]. right. auto.
Qed.
Lemma swaps_inv fuel gst rs g : swaps fuel gst rs g -> gm_inv g rs.
Proof using Hnd Hcust.
  intros (p & r2 & routed2 & r' & kii & inc & routed3 & H). cbv zeta in H.
  destruct H as (H1 & H2 & H3 & H4 & H5 & H6 & H7 & H8 & H9 & H10 & H11 & H12 & H13 & H14 & ->).
  assert (Hne : inc <> []). { destruct H7 as (a & b & c & E & _ & G & _). injection E as _ <- _ _. exact G. }
  assert (Hne' : sr_set r' <> []). { rewrite H10. intros E. apply app_eq_nil in E. destruct E. easy. }
  apply gm_proceed_ok; [exact H11|exact H12|exact H4| |easy].
  destruct (mem (node_at order p) inc) eqn:Em; [|exact Hne']. split; [apply node_at_in, H4|]. left. rewrite H10. apply in_or_app. right. apply mem_in, Em.
Qed.
Lemma cases_inv fuel gst rs g : gm_inv gst rs -> closes (gm_sw gst) rs g \/ adds gst rs g \/ swaps fuel gst rs g -> exists rs', gm_inv g rs'.
Proof using Halone Hnd Hcust.
  intros HI [H|[H|H]].
  - destruct H as (pos & node & routes & routed & count & rs' & -> & H1 & H2 & H3 & H4 & H5). exists rs'. apply closes_inv; try assumption. apply H5.
  - exists rs. exact (adds_inv gst rs g HI H).
  - exists rs. exact (swaps_inv fuel gst rs g H).
Qed.
End Loop.
