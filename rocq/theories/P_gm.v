(** * Gillett and Miller's sweep: without both limits it is the plain sweep *)
From Verif Require Import Spec Spec_rfcs Spec_inter Spec_savings Spec_sweep PyBase P_base M_util M_psavings M_ssavings M_savfam M_nn M_sweep M_gm P_sweep P_sweep2 P_sweep3 P_ssavings.
From Coq Require Import ZifyBool ZifyNat Lia Arith List Permutation.
Import ListNotations.
Local Open Scope Z_scope.

Lemma nn_insert_perm x l : Permutation (nn_insert x l) (x :: l).
Proof.
  induction l as [|y l IH]; cbn [nn_insert]; [reflexivity|]. destruct (snd x <=? snd y); [reflexivity|].
  rewrite IH. apply perm_swap.
Qed.
Lemma nn_sort_perm l : Permutation (nn_sort l) l.
Proof. induction l as [|x l IH]; cbn; [reflexivity|]. rewrite nn_insert_perm. now constructor. Qed.
Lemma nn_row_perm N D i : Permutation (nn_row N D i) (range 0 N).
Proof.
  unfold nn_row. rewrite nn_sort_perm, map_map. cbn [fst]. rewrite map_id. reflexivity.
Qed.
Lemma nn_row_in N D i x : In x (nn_row N D i) <-> (x < N)%nat.
Proof.
  split; intros H.
  - apply (Permutation_in _ (nn_row_perm N D i)) in H. unfold range in H. apply in_seq in H. lia.
  - apply (Permutation_in _ (Permutation_sym (nn_row_perm N D i))). unfold range. apply in_seq. lia.
Qed.
Lemma find_some_in {A} (p : A -> bool) l x : In x l -> p x = true -> exists y, find p l = Some y.
Proof.
  intros H1 H2. destruct (find p l) as [y|] eqn:E; [exists y; reflexivity|]. assert (G := find_none p l E x H1). congruence.
Qed.

Lemma fits_both ceps seps C L a b : gm_fits ceps seps C L a b = true -> is_set C = true /\ is_set L = true /\ within L seps a /\ within C ceps b.
Proof.
  unfold gm_fits, is_set. destruct (truthy L) as [l|] eqn:EL; [|easy]. destruct (truthy C) as [c|] eqn:EC; [|easy].
  intros H. apply andb_true_iff in H. destruct H as (H1 & H2). split; [reflexivity|]. split; [reflexivity|].
  assert (G1 : exceeds L seps a = false) by (unfold exceeds; rewrite EL; lia).
  assert (G2 : exceeds C ceps b = false) by (unfold exceeds; rewrite EC; lia).
  split; apply exceeds_within; assumption.
Qed.

Section Next.
Variable order : list nat.
Variable ccw : bool.
Notation len := (length order).
Lemma next_pos routed : forall n start p, (p < len)%nat -> (fst (next_unrouted order ccw n start p routed) < len)%nat.
Proof using Type.
  induction n as [|n IH]; intros start p Hp; cbn [next_unrouted].
  - destruct (negb _); [cbn; apply step_lt, Hp|]. destruct (Nat.eqb _ _); cbn; apply step_lt, Hp.
  - destruct (negb _); [cbn; apply step_lt, Hp|]. destruct (Nat.eqb _ _); [cbn; apply step_lt, Hp|]. apply IH, step_lt, Hp.
Qed.
Lemma next_ext r1 r2 : (forall x, r1 x = r2 x) -> forall n start p, next_unrouted order ccw n start p r1 = next_unrouted order ccw n start p r2.
Proof using Type.
  intros H. induction n as [|n IH]; intros start p; cbn [next_unrouted]; rewrite H; [reflexivity|]. now rewrite IH.
Qed.
Lemma ensure_pos seps d C L f : forall fuel p fp r routed fp' r' routed', (p < len)%nat -> (fp < len)%nat ->
  ensure_L seps d C L f order ccw fuel p fp r routed = Some (fp', r', routed') -> (fp' < len)%nat.
Proof using Type.
  induction fuel as [|fuel IH]; intros p fp r routed fp' r' routed' Hp Hfp; cbn [ensure_L].
  - destruct (negb _); [|easy]. intros E. injection E as <- _ _. exact Hfp.
  - destruct (negb _); [intros E; injection E as <- _ _; exact Hfp|]. destruct (mem _ _).
    + apply IH; apply step_lt, Hp.
    + apply IH; [apply step_lt, Hp|exact Hfp].
Qed.
End Next.

Section Plain.
Variables ceps seps : Z.
Variable D : matrix.
Variable d : demands.
Variables C L : limit.
Variable f : routing.
Variable order : list nat.
Variable ccw : bool.
Variable callback : swroute -> nat -> (nat -> bool) -> callback_result.
Notation len := (length order).
Hypothesis Hcb : forall r pos routed, (pos < len)%nat -> callback r pos routed = (r, [], [], true).

Lemma proceed_plain pos node routes routed count r bound :
  gm_proceed D d C L order ccw pos node routes routed count r bound [] = mkgm (sw_proceed D d C L order ccw pos node routes routed count r bound) [].
Proof using Type.
  unfold gm_proceed, sw_proceed. destruct (match node with Some n => _ | None => _ end) as ((r', routed'), bound').
  rewrite (next_ext order ccw (fun x => routed' x || mem x []) routed') by (intros x; apply Bool.orb_false_r).
  destruct (next_unrouted _ _ _ _ _ _) as (pos', node'). destruct node'; reflexivity.
Qed.
Lemma proceed_pos pos node routes routed count r bound : (pos < len)%nat -> (sw_pos (sw_proceed D d C L order ccw pos node routes routed count r bound) < len)%nat.
Proof using Type.
  intros Hp. unfold sw_proceed. destruct (match node with Some n => _ | None => _ end) as ((r', routed'), bound').
  assert (G := next_pos order ccw routed' len pos pos Hp). destruct (next_unrouted _ _ _ _ _ _) as (pos', node'). exact G.
Qed.

Lemma iter_plain fuel st : (sw_pos st < len)%nat -> (sw_node st = None -> sw_complete st = true) ->
  gm_iter ceps seps D d C L f order ccw callback fuel (mkgm st []) =
    option_map (fun x => match x with inl r => inl r | inr s => inr (mkgm s []) end) (sw_iter ceps seps D d C L f order ccw false fuel st) /\
  forall st', sw_iter ceps seps D d C L f order ccw false fuel st = Some (inr st') -> (sw_pos st' < len)%nat /\ (sw_node st' = None -> sw_complete st' = true).
Proof using Hcb.
  intros Hp Hn. unfold gm_iter, sw_iter. cbn [gm_sw gm_blocked].
  assert (Hpc : forall pos node routes routed count r bound, sw_node (sw_proceed D d C L order ccw pos node routes routed count r bound) = None ->
      sw_complete (sw_proceed D d C L order ccw pos node routes routed count r bound) = true).
  { intros. revert H. unfold sw_proceed. destruct (match node with Some n => _ | None => _ end) as ((r', routed'), bound').
    destruct (next_unrouted _ _ _ _ _ _) as (pos', [x|]); cbn; easy. }
  match goal with |- context [let '(bound1, complete2) := ?m in _] => destruct m as (bound1, complete2) end.
  rewrite Bool.orb_false_r.
  destruct complete2.
  2:{ cbn [option_map]. rewrite proceed_plain. split; [reflexivity|]. intros st' E. injection E as <-. split; [apply proceed_pos, Hp|apply Hpc]. }
  cbn [andb orb].
  assert (HX : forall pos node cur2 routed, (pos < len)%nat ->
    (let '(cur3, included, ignored, complete3) :=
          match node with Some _ => callback cur2 pos routed | None => (cur2, [], [], true) end in
        let routed3 := fold_left (fun r x => upd r x false) ignored (fold_left (fun r x => upd r x true) included routed) in
        let blocked3 := ignored ++ [] in
        let node3 := match node with Some n => if mem n ignored then None else Some n | None => None end in
        if complete3 then
          let routes := if (0 <? length (sr_set cur3))%nat then sw_routes st ++ [cur3] else sw_routes st in
          let count := (sw_count st + length (sr_set cur3))%nat in
          if (length order <=? count)%nat then Some (inl routes)
          else Some (inr (gm_proceed D d C L order ccw pos node3 routes routed3 count sr_new 0 []))
        else Some (inr (gm_proceed D d C L order ccw pos node3 (sw_routes st) routed3 (sw_count st) cur3 (sr_cost cur3) blocked3))) =
    option_map (fun x => match x with inl r => inl r | inr s => inr (mkgm s []) end)
      (let routes := if (0 <? length (sr_set cur2))%nat then sw_routes st ++ [cur2] else sw_routes st in
       let count := (sw_count st + length (sr_set cur2))%nat in
       if (length order <=? count)%nat then Some (inl routes)
       else Some (inr (sw_proceed D d C L order ccw pos node routes routed count sr_new 0)))).
  { intros pos node cur2 routed Hpos.
    replace (match node with Some _ => callback cur2 pos routed | None => (cur2, [], [], true) end) with (cur2, @nil nat, @nil nat, true) by (destruct node; [symmetry; apply Hcb, Hpos|reflexivity]).
    cbn [fold_left app mem existsb]. replace (match node with Some n => Some n | None => None end) with node by (destruct node; reflexivity).
    cbv zeta. destruct (len <=? _)%nat; [reflexivity|]. cbn [option_map]. rewrite proceed_plain. reflexivity. }
  assert (HY : forall pos node cur2 routed st', (pos < len)%nat ->
      (let routes := if (0 <? length (sr_set cur2))%nat then sw_routes st ++ [cur2] else sw_routes st in
       let count := (sw_count st + length (sr_set cur2))%nat in
       if (length order <=? count)%nat then Some (inl routes)
       else Some (inr (sw_proceed D d C L order ccw pos node routes routed count sr_new 0))) = Some (inr st') ->
      (sw_pos st' < len)%nat /\ (sw_node st' = None -> sw_complete st' = true)).
  { intros pos node cur2 routed st' Hpos. cbv zeta. destruct (len <=? _)%nat; [easy|]. intros E. injection E as <-. split; [apply proceed_pos, Hpos|apply Hpc]. }
  destruct (is_set L).
  - destruct (ensure_L _ _ _ _ _ _ _ _ _ _ _ _) as [((p, r), routed)|] eqn:EE; [|split; [reflexivity|discriminate]].
    assert (G := ensure_pos order ccw _ _ _ _ _ _ _ _ _ _ _ _ _ Hp Hp EE).
    destruct (Nat.eqb_spec p (sw_pos st)) as [Ep|Ep].
    + split; [apply HX, Hp|]. intros st'. apply HY, Hp.
    + split; [apply HX, G|]. intros st'. apply HY, G.
  - split; [apply HX, Hp|]. intros st'. apply HY, Hp.
Qed.

Lemma loop_plain fuelL : forall fuel st, (sw_pos st < len)%nat -> (sw_node st = None -> sw_complete st = true) ->
  gm_loop ceps seps D d C L f order ccw callback fuelL fuel (mkgm st []) = sw_loop ceps seps D d C L f order ccw false fuelL fuel st.
Proof using Hcb.
  induction fuel as [|fuel IH]; intros st H1 H2; [reflexivity|]. cbn [gm_loop sw_loop].
  destruct (iter_plain fuelL st H1 H2) as (E & G). rewrite E. destruct (sw_iter _ _ _ _ _ _ _ _ _ _ _ _) as [[routes|st']|]; cbn [option_map]; try reflexivity.
  destruct (G st' eq_refl) as (G1 & G2). apply IH; assumption.
Qed.
Lemma sweep_plain start fuel : gm_one_sweep ceps seps D d C L f order ccw callback start fuel = do_one_sweep ceps seps D d C L f order ccw false start fuel.
Proof using Hcb.
  unfold gm_one_sweep, do_one_sweep. destruct (nth_error order start) eqn:E; [|reflexivity]. f_equal. apply loop_plain; [|easy].
  cbn [sw_pos]. apply nth_error_Some. congruence.
Qed.
End Plain.

Section Unlimited.
Variables ceps seps : Z.
Variable N : nat.
Variable D : matrix.
Variable d : demands.
Variables C L : limit.
Variable tsp : matrix -> routing.
Variable order : list nat.
Hypothesis Hset : is_set C = false \/ is_set L = false.
Hypothesis Hcust : forall x, In x order -> (1 <= x < N)%nat.
Lemma fits_unset a b : gm_fits ceps seps C L a b = false.
Proof using Hset. destruct (gm_fits ceps seps C L a b) eqn:E; [|reflexivity]. apply fits_both in E. destruct E as (E1 & E2 & _). destruct Hset; congruence. Qed.
Lemma callback_unset ccw score routed r pos : (pos < length order)%nat -> gm_callback ceps seps N D d C L tsp order ccw score routed r pos = (r, [], [], true).
Proof using Hset Hcust.
  intros Hp. unfold gm_callback. destruct (routed (node_at order pos)) eqn:Er; [reflexivity|].
  destruct (gm_remove _ _) as [kii|]; [|reflexivity].
  match goal with |- context [find ?p ?l] => destruct (find_some_in p l (node_at order pos)) as (jjx & ->) end.
  - apply nn_row_in. assert (G := Hcust _ (node_at_in order pos Hp)). lia.
  - now rewrite Er.
  - destruct (tsp D _) as (a, b). rewrite fits_unset. reflexivity.
Qed.
Lemma candidates_plain score runs fuel : gm_candidates ceps seps N D d C L tsp order score runs fuel = sw_candidates ceps seps D d C L (tsp D) order runs fuel.
Proof using Hset Hcust.
  induction runs as [|(ccw, start) runs IH]; [reflexivity|]. cbn [gm_candidates sw_candidates]. unfold gm_run. rewrite sweep_plain.
  - destruct (do_one_sweep _ _ _ _ _ _ _ _ _ _ _ _) as [[routes|]|]; try reflexivity. now rewrite IH.
  - intros. apply callback_unset. assumption.
Qed.
Lemma gm_plain mk score rho dir s fuel : gillet_miller_init ceps seps N D d C L mk tsp order score rho dir s fuel = sweep_init ceps seps D d C L mk (tsp D) order N rho dir s fuel.
Proof using Hset Hcust. unfold gillet_miller_init, sweep_init. destruct (sw_starts _ _ _ _); [|reflexivity]. now rewrite candidates_plain. Qed.
Lemma gm_plain_interrupted mk score runs k fuel : gm_interrupted ceps seps N D d C L mk tsp order score runs k fuel = sweep_interrupted ceps seps D d C L mk (tsp D) order runs k fuel.
Proof using Hset Hcust. unfold gm_interrupted, sweep_interrupted. now rewrite candidates_plain. Qed.
End Unlimited.
