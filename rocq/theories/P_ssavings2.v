(** * Proofs about sequential savings: the loop over the routes *)
From Coq Require Import Sorted ZifyBool ZifyNat.
From Verif Require Import Spec Spec_inter Spec_savings PyBase M_util M_psavings M_ssavings P_base P_intra2 P_driver P_inter P_psavings P_psavings2 P_ssavings.

Local Arguments singles : simpl never.

Lemma next_seed_ok U : forall seeds, U <> [] -> (forall u, In u U -> In u seeds) ->
  exists s t, next_seed U seeds = Some (s, t) /\ In s U /\ (forall u, In u U -> u = s \/ In u t).
Proof.
  induction seeds as [|s t IH]; intros HU H.
  - destruct U as [|u U]; [easy|]. destruct (H u). now left.
  - cbn. destruct (mem s U) eqn:E.
    + exists s, t. split; [reflexivity|]. apply mem_in in E. split; [exact E|]. intros u Hu. destruct (H u Hu); auto.
    + apply IH; [assumption|]. intros u Hu. destruct (H u Hu) as [->|Hin]; [|exact Hin]. apply mem_in in Hu. congruence.
Qed.

Lemma encode_snoc rs em : encode rs ++ em ++ [0%nat] = encode (rs ++ [em]).
Proof. rewrite P_psavings2.encode_app. cbn. now rewrite app_nil_r. Qed.
Lemma routes_cost_app D a b : routes_cost D (a ++ b) = routes_cost D a + routes_cost D b.
Proof. induction a as [|r a IH]; [reflexivity|]. cbn [app]. rewrite !routes_cost_cons, IH. lia. Qed.
Lemma concat_singles U : concat (singles U) = U.
Proof. induction U as [|u U IH]; [reflexivity|]. change (singles (u :: U)) with ([u] :: singles U). cbn [concat app]. now rewrite IH. Qed.
Lemma singles_nonempty U : Forall (fun r => r <> []) (singles U).
Proof. apply Forall_forall. intros r Hr. apply in_map_iff in Hr. destruct Hr as (x & <- & _). discriminate. Qed.
Lemma filter_nonempty_id rs : Forall (fun r : list nat => r <> []) rs -> filter nonempty rs = rs.
Proof. induction 1 as [|r rs H _ IH]; [reflexivity|]. cbn. destruct r; [easy|]. cbn. now rewrite IH. Qed.

Definition in_window (pt : spoint) : Prop := pt = S_seeded \/ pt = S_appended \/ pt = S_added.

Section Routes.
Variables (ceps seps : Z) (D : matrix) (d : demands) (C L : limit) (mk : bool) (cb : list nat -> nat -> list saving).
Hypothesis Hsym : symmetric D.
Notation feas := (feasible D d C L ceps seps).
Notation starU := (star D).

(** what is reported at a point, the routes [rs] being complete and [U] unrouted *)
Definition rpoint_ok (rs : list (list nat)) (U : list nat) (p : spoint * sstate) : Prop :=
  exists qs, ss_interrupted p = encode (rs ++ qs) /\ Forall feas (filter nonempty qs) /\ incl U (concat qs) /\ incl (concat qs) U /\
    (~ in_window (fst p) -> Permutation (concat qs) U /\ (mk = false -> routes_cost D (filter nonempty qs) <= starU U)) /\
    (fst p = S_closed \/ fst p = S_added \/ Forall (fun r => r <> []) qs).

Definition closes (rs : list (list nat)) : Prop :=
  forall l1 r l2, rs = l1 ++ r :: l2 -> forall i j q, In j (concat l2) -> extended r i j q ->
    ~ feas q \/ (mk = false /\ cw D i j < 0).

Lemma interrupted_eq pt rs em U : (forall n, In n U -> n <> 0%nat) -> em <> [] -> 
  ss_interrupted (pt, mkss (encode rs) (Some em) U) = encode (rs ++ [em] ++ singles U).
Proof.
  intros HU He. unfold ss_interrupted. cbn [snd ss_em ss_sol ss_unr]. destruct em as [|x em]; [easy|]. rewrite encode_snoc.
  rewrite routes2sol_gen_singles by assumption. rewrite app_assoc. symmetry. apply (P_psavings2.encode_app (rs ++ [x :: em])).
Qed.
Lemma interrupted_none pt rs U : (forall n, In n U -> n <> 0%nat) -> 
  ss_interrupted (pt, mkss (encode rs) None U) = encode (rs ++ singles U).
Proof.
  intros HU. unfold ss_interrupted. cbn [snd ss_em ss_sol ss_unr]. 
  rewrite routes2sol_gen_singles by assumption. rewrite P_psavings2.encode_app. reflexivity.
Qed.
Lemma interrupted_closed pt rs em U : (forall n, In n U -> n <> 0%nat) ->
  ss_interrupted (pt, mkss (encode rs) (Some (em ++ [0%nat])) U) = encode (rs ++ [em; []] ++ singles U).
Proof.
  intros HU. unfold ss_interrupted. cbn [snd ss_em ss_sol ss_unr]. destruct (em ++ [0%nat]) as [|x e] eqn:E; [destruct em; discriminate|].
  rewrite <- E. rewrite (encode_snoc rs (em ++ [0%nat])). 
  replace (encode (rs ++ [em ++ [0%nat]])) with (encode ((rs ++ [em]) ++ [[]])).
  - rewrite routes2sol_gen_singles by assumption. replace (rs ++ [em; []] ++ singles U) with (((rs ++ [em]) ++ [[]]) ++ singles U) by now rewrite <- !app_assoc. symmetry. apply P_psavings2.encode_app.
  - rewrite !P_psavings2.encode_app. cbn. rewrite !app_nil_r. now rewrite <- !app_assoc.
Qed.

Lemma singles_feas U : (forall u, In u U -> feas [u]) -> Forall feas (singles U).
Proof. intros H. apply Forall_forall. intros r Hr. apply in_map_iff in Hr. destruct Hr as (x & <- & Hx). now apply H. Qed.

Lemma in_del x y l : In y (del x l) -> In y l.
Proof. unfold del. intros H. apply filter_In in H. apply H. Qed.

(** shapes of the reported solutions *)
Lemma rp_emerging pt rs U e u : (forall n, In n U -> n <> 0%nat) -> (forall n, In n U -> feas [n]) -> e <> [] -> feas e ->
  incl U (e ++ u) -> incl (e ++ u) U -> 
  (in_window pt \/ Permutation (e ++ u) U /\ (mk = false -> route_cost D e + starU u <= starU U)) ->
  rpoint_ok rs U (pt, mkss (encode rs) (Some e) u).
Proof.
  intros H0 HF He Hfe I1 I2 HW. assert (Iu : incl u U) by (intros z Hz; apply I2, in_or_app; now right).
  exists ([e] ++ singles u). rewrite interrupted_eq by auto. split; [reflexivity|].
  assert (NE : Forall (fun r => r <> []) ([e] ++ singles u)) by (constructor; [exact He|apply singles_nonempty]).
  rewrite (filter_nonempty_id _ NE).
  assert (EC : concat ([e] ++ singles u) = e ++ u) by (cbn; now rewrite concat_singles). rewrite EC.
  split; [constructor; [exact Hfe|apply singles_feas; auto]|]. split; [exact I1|]. split; [exact I2|]. split; [|auto].
  intros Hn. destruct HW as [HW|(P & HC)]; [contradiction|]. split; [exact P|]. intros Hmk. cbn [app]. rewrite routes_cost_cons. now apply HC.
Qed.

Lemma rp_shift rs em U U2 p : em <> [] -> feas em -> Permutation (em ++ U2) U -> (mk = false -> route_cost D em + starU U2 <= starU U) ->
  rpoint_ok (rs ++ [em]) U2 p -> rpoint_ok rs U p.
Proof.
  intros He Hf HP HC (qs & E & F & I1 & I2 & W & NE). exists (em :: qs). rewrite <- app_assoc in E. split; [exact E|].
  assert (EF : filter nonempty (em :: qs) = em :: filter nonempty qs) by (destruct em; [easy|reflexivity]). rewrite EF.
  split; [now constructor|]. cbn [concat]. split; [|split; [|split]].
  - intros z Hz. apply (Permutation_in _ (Permutation_sym HP)) in Hz. apply in_app_or in Hz. apply in_or_app. destruct Hz; [now left|right; now apply I1].
  - intros z Hz. apply (Permutation_in _ HP). apply in_app_or in Hz. apply in_or_app. destruct Hz; [now left|right; now apply I2].
  - intros Hn. destruct (W Hn) as (P & HC2). split; [now rewrite P|]. intros Hmk. rewrite routes_cost_cons. specialize (HC Hmk). specialize (HC2 Hmk). lia.
  - destruct NE as [NE|[NE|NE]]; auto. 
Qed.

Notation RL := (route_loop ceps seps D d C L mk cb).

Lemma route_ok n : forall seeds rs U, (length U <= n)%nat -> NoDup U -> (forall u, In u U -> In u seeds) ->
  (forall u, In u U -> feas [u]) -> (forall u, In u U -> u <> 0%nat) ->
  exists rs' pts, RL n seeds (encode rs) U = Some (encode (rs ++ rs'), pts) /\ Permutation (concat rs') U /\
    Forall (fun r => r <> []) rs' /\ Forall feas rs' /\ (mk = false -> routes_cost D rs' <= starU U) /\
    Forall (rpoint_ok rs U) pts /\
    (triangle D -> (forall n, 0 <= d n) -> cb_ok D cb ->
     (mk = false -> forall U i, StronglySorted sav_ge (cb U i)) -> closes rs').
Proof.
  induction n as [|n IH]; intros seeds rs U HL HN HS HF H0.
  { destruct U as [|u U]; [|cbn in HL; lia]. exists [], []. rewrite app_nil_r. cbn.
    split; [reflexivity|]. split; [constructor|]. split; [constructor|]. split; [constructor|]. split; [reflexivity|]. split; [constructor|].
    intros _ _ _ _ l1 r l2 E. destruct l1; discriminate. }
  destruct U as [|u0 U0] eqn:EU.
  { exists [], []. rewrite app_nil_r. cbn.
    split; [reflexivity|]. split; [constructor|]. split; [constructor|]. split; [constructor|]. split; [reflexivity|]. split; [constructor|].
    intros _ _ _ _ l1 r l2 E. destruct l1; discriminate. }
  assert (HUne : U <> []) by (rewrite EU; discriminate). 
  rewrite <- EU in *.
  replace (RL (S n) seeds (encode rs) U) with
    (match next_seed U seeds with
     | None => None
     | Some (seed, seeds') =>
         match merge_loop ceps seps D d C L mk cb (encode rs) (length (del seed U)) (cb (del seed U) seed) [seed]
                 (if is_set C then d seed else 0) (if is_set L then D 0%nat seed + D seed 0%nat else 0) (del seed U) with
         | None => None
         | Some (em, unr2, pts) =>
             match RL n seeds' (encode rs ++ em ++ [0%nat]) unr2 with
             | None => None
             | Some (sol'', pts') =>
                 Some (sol'', [(S_seeded, mkss (encode rs) (Some [seed]) U); (S_seed_removed, mkss (encode rs) (Some [seed]) (del seed U))]
                   ++ pts ++ [(S_closed, mkss (encode rs) (Some (em ++ [0%nat])) unr2);
                      (S_added, mkss (encode rs ++ em ++ [0%nat]) (Some (em ++ [0%nat])) unr2);
                      (S_reset, mkss (encode rs ++ em ++ [0%nat]) None unr2)] ++ pts')
             end
         end
     end) by (rewrite EU; reflexivity).
  destruct (next_seed_ok U seeds HUne HS) as (s & t & En & Hs & Ht). rewrite En.
  assert (PU := del_perm s U HN Hs). assert (LU := del_length s U HN Hs).
  destruct (merge_ok ceps seps D d C L mk cb (encode rs) Hsym (length (del s U)) (cb (del s U) s) [s]
    (if is_set C then d s else 0) (if is_set L then D 0%nat s + D s 0%nat else 0) (del s U))
    as (em & U2 & pts & E & Q1 & Q2 & Q3 & Q4 & Q5 & Q6 & Q7 & Q8).
  { split; [discriminate|]. split; [eapply Permutation_NoDup; [exact PU|exact HN]|]. split; [now apply HF|]. split; intros ->.
    - cbn. lia.
    - now rewrite single_cost. }
  { lia. }
  rewrite E.
  assert (ES : starU U = route_cost D [s] + starU (del s U)).
  { unfold star. rewrite (singles_cost_perm D _ _ PU). change (singles (s :: del s U)) with ([s] :: singles (del s U)). now rewrite routes_cost_cons. }
  assert (PU2 : Permutation (em ++ U2) U) by (rewrite Q2; now symmetry).
  assert (CU2 : mk = false -> route_cost D em + starU U2 <= starU U) by (intros Hmk; specialize (Q4 Hmk); lia).
  assert (IU2 : incl U2 U) by (intros z Hz; apply Q7, in_del in Hz; exact Hz).
  rewrite (encode_snoc rs em).
  destruct (IH t (rs ++ [em]) U2) as (rs' & pts' & E' & R1 & R2 & R3 & R4 & R5 & R6).
  { lia. }
  { apply (Permutation_NoDup (Permutation_sym PU2)) in HN. now apply NoDup_app_r in HN. }
  { intros u Hu. destruct (Ht u (IU2 u Hu)) as [->|]; [|assumption]. apply Q7 in Hu. unfold del in Hu. apply filter_In in Hu.
    destruct Hu as (_ & Hu). rewrite Nat.eqb_refl in Hu. discriminate. }
  { auto. } { auto. }
  rewrite E'. exists (em :: rs'). eexists. rewrite <- app_assoc. split; [reflexivity|].
  split; [cbn; now rewrite R1|]. split; [now constructor|]. split; [now constructor|].
  split; [intros Hmk; rewrite routes_cost_cons; specialize (R4 Hmk); specialize (CU2 Hmk); lia|].
  assert (IncU : forall z, In z U -> z = s \/ In z (del s U)).
  { intros z Hz. apply (Permutation_in _ PU) in Hz. destruct Hz; auto. }
  split.
  - apply Forall_cons; [|apply Forall_cons; [|apply Forall_app; split; [|apply Forall_cons; [|apply Forall_cons; [|apply Forall_cons]]]]].
    + apply rp_emerging; auto; try discriminate.
      * intros z Hz. apply in_or_app. now right.
      * intros z Hz. destruct Hz as [<-|Hz]; assumption.
      * left. left. reflexivity.
    + apply rp_emerging; auto; try discriminate.
      * intros z Hz. destruct (IncU z Hz) as [->|]; [now left|now right].
      * intros z Hz. destruct Hz as [<-|Hz]; [assumption|now apply in_del in Hz].
      * right. split; [now symmetry|]. intros _. rewrite ES. lia.
    + rewrite Forall_forall in *. intros p Hp. destruct (Q6 p Hp) as (e & u & A1 & A2 & A3 & A4 & A5 & A6).
      destruct p as [pt st]. cbn [snd fst] in *. subst st. apply rp_emerging; auto.
      * intros z Hz. apply A4. destruct (IncU z Hz) as [->|]; [now left|now right].
      * intros z Hz. apply A5 in Hz. destruct Hz as [<-|Hz]; [assumption|now apply in_del in Hz].
      * destruct A6 as [->|(-> & A7 & A8)]; [left; right; now left|]. right. split; [rewrite A7; now symmetry|].
        intros Hmk. specialize (A8 Hmk). lia.
    + (* closed *)
      exists ([em; []] ++ singles U2). rewrite interrupted_closed by auto. split; [reflexivity|].
      assert (EF : filter nonempty ([em; []] ++ singles U2) = em :: singles U2).
      { rewrite filter_app, (filter_nonempty_id (singles U2)) by apply singles_nonempty. destruct em; [easy|reflexivity]. }
      rewrite EF. assert (EC : concat ([em; []] ++ singles U2) = em ++ U2) by (cbn; now rewrite concat_singles). rewrite EC.
      split; [constructor; [exact Q3|apply singles_feas; auto]|].
      split; [intros z Hz; now apply (Permutation_in _ (Permutation_sym PU2))|]. split; [intros z Hz; now apply (Permutation_in _ PU2)|].
      split; [|now left]. intros _. split; [exact PU2|]. rewrite routes_cost_cons. exact CU2.
    + (* added *)
      exists ([em; em; []] ++ singles U2). rewrite interrupted_closed by auto. split; [now rewrite <- !app_assoc|].
      assert (EF : filter nonempty ([em; em; []] ++ singles U2) = em :: em :: singles U2).
      { rewrite filter_app, (filter_nonempty_id (singles U2)) by apply singles_nonempty. destruct em; [easy|reflexivity]. }
      rewrite EF. assert (EC : concat ([em; em; []] ++ singles U2) = em ++ em ++ U2) by (cbn; now rewrite concat_singles). rewrite EC.
      split; [constructor; [exact Q3|constructor; [exact Q3|apply singles_feas; auto]]|].
      split; [intros z Hz; apply in_or_app; right; now apply (Permutation_in _ (Permutation_sym PU2))|].
      split; [intros z Hz; apply in_app_or in Hz; apply (Permutation_in _ PU2); destruct Hz as [Hz|Hz]; [apply in_or_app; now left|exact Hz]|].
      split; [|right; now left]. intros Hn. exfalso. apply Hn. right. now right.
    + (* reset *)
      exists ([em] ++ singles U2). rewrite interrupted_none by auto. split; [now rewrite <- !app_assoc|].
      assert (NE : Forall (fun r => r <> []) ([em] ++ singles U2)) by (constructor; [exact Q1|apply singles_nonempty]).
      rewrite (filter_nonempty_id _ NE). assert (EC : concat ([em] ++ singles U2) = em ++ U2) by (cbn; now rewrite concat_singles). rewrite EC.
      split; [constructor; [exact Q3|apply singles_feas; auto]|].
      split; [intros z Hz; now apply (Permutation_in _ (Permutation_sym PU2))|]. split; [intros z Hz; now apply (Permutation_in _ PU2)|].
      split; [|auto]. intros _. split; [exact PU2|]. cbn [app]. rewrite routes_cost_cons. exact CU2.
    + apply Forall_forall. intros p Hp. rewrite Forall_forall in R5. apply (rp_shift rs em U U2 p); auto.
  - intros HT Hd Hcb Hsort l1 r l2 El. destruct l1 as [|r1 l1]; cbn in El; injection El as -> ->.
    + intros i j q Hj. apply Q8; try assumption.
      * split; [|split].
        -- intros i0 j0 Hj0 He0. left. assert (i0 = s) by (destruct He0; cbn in *; congruence). subst i0.
           apply (proj1 (Hcb (del s U) s ltac:(unfold del; intros Hx; apply filter_In in Hx; destruct Hx as (_ & Hx); rewrite Nat.eqb_refl in Hx; discriminate))). exact Hj0.
        -- auto.
        -- apply (proj2 (Hcb (del s U) s ltac:(unfold del; intros Hx; apply filter_In in Hx; destruct Hx as (_ & Hx); rewrite Nat.eqb_refl in Hx; discriminate))).
      * now apply (Permutation_in _ R1).
    + apply (R6 HT Hd Hcb Hsort l1 r l2 eq_refl).
Qed.

Variable N : nat.
Variable seeds : list nat.
Hypothesis Halone : served_alone N D d C L ceps seps.
Hypothesis Hseeds : forall i, (1 <= i < N)%nat -> In i seeds.

Lemma run_ok : exists rs pts, ss_run ceps seps N D d C L mk cb seeds = Some (encode rs, pts) /\ covers N rs /\
    Forall (fun r => r <> []) rs /\ Forall feas rs /\
    (mk = false -> routes_cost D rs <= routes_cost D (map (fun i => [i]) (seq 1 (N - 1)))) /\
    Forall (rpoint_ok [] (range 1 N)) pts /\
    (triangle D -> (forall n, 0 <= d n) -> cb_ok D cb -> (mk = false -> forall U i, StronglySorted sav_ge (cb U i)) -> closes rs).
Proof.
  unfold ss_run. change [0%nat] with (encode []).
  assert (HR : forall u, In u (range 1 N) -> (1 <= u < N)%nat) by (intros u Hu; apply in_seq in Hu; lia).
  destruct (route_ok N seeds [] (range 1 N)) as (rs & pts & E & R1 & R2 & R3 & R4 & R5 & R6).
  - unfold range. rewrite seq_length. lia.
  - apply seq_NoDup.
  - auto.
  - intros u Hu. apply Halone. auto.
  - intros u Hu. apply HR in Hu. lia.
  - rewrite E. exists rs. eexists. split; [reflexivity|]. split; [exact R1|]. split; [exact R2|]. split; [exact R3|]. split; [exact R4|].
    split; [|exact R6]. constructor; [|exact R5]. exists (singles (range 1 N)). 
    rewrite interrupted_none by (intros u Hu; apply HR in Hu; lia). rewrite (filter_nonempty_id _ (singles_nonempty _)), concat_singles.
    split; [reflexivity|]. split; [apply singles_feas; intros u Hu; apply Halone; auto|]. split; [apply incl_refl|]. split; [apply incl_refl|].
    split; [|right; right; apply singles_nonempty]. intros _. split; [reflexivity|]. intros _. unfold star. lia.
Qed.

Lemma sequential_result : exists rs, sequential_savings_init ceps seps N D d C L mk cb seeds = Some (encode rs) /\ covers N rs /\
    Forall (fun r => r <> []) rs /\ Forall feas rs /\
    (mk = false -> routes_cost D rs <= routes_cost D (map (fun i => [i]) (seq 1 (N - 1)))).
Proof.
  destruct run_ok as (rs & pts & E & H). exists rs. unfold sequential_savings_init. rewrite E. split; [reflexivity|]. tauto.
Qed.

Lemma sequential_interrupted : exists sol pts, ss_run ceps seps N D d C L mk cb seeds = Some (sol, pts) /\
  forall p, In p pts ->
    (fst p <> S_seeded -> fst p <> S_appended -> fst p <> S_added ->
     exists rs, ss_interrupted p = encode rs /\ covers N rs /\ Forall feas (filter nonempty rs) /\
       (fst p <> S_closed -> Forall (fun r => r <> []) rs) /\
       (mk = false -> routes_cost D (filter nonempty rs) <= routes_cost D (map (fun i => [i]) (seq 1 (N - 1))))) /\
    (exists rs, ss_interrupted p = encode rs /\ (forall c, (1 <= c < N)%nat <-> In c (concat rs)) /\ Forall feas (filter nonempty rs)).
Proof.
  destruct run_ok as (rs & pts & E & _ & _ & _ & _ & HP & _). exists (encode rs), pts. split; [exact E|]. intros p Hp.
  rewrite Forall_forall in HP. destruct (HP p Hp) as (qs & Eq & F & I1 & I2 & W & NE). split.
  - intros W1 W2 W3. exists qs. split; [exact Eq|]. destruct W as (P & HC); [intros [|[|]]; contradiction|]. split; [exact P|]. split; [exact F|].
    split; [intros Hc; tauto|exact HC].
  - exists qs. split; [exact Eq|]. split; [|exact F]. intros c. split; intros Hc.
    + apply I1, in_seq. lia.
    + apply I2 in Hc. apply in_seq in Hc. lia.
Qed.
End Routes.

Lemma in_clarke_wright_seq D U i s x i' j : In (s, x, i', j) (clarke_wright_seq D U i) <-> i' = i /\ In j U /\ j <> i /\ s = cw D i j /\ x = - D i j.
Proof.
  unfold clarke_wright_seq.
  assert (P := sort_reverse_perm (map (fun j => (D i 0%nat + D 0%nat j - D i j, - D i j, i, j)) (filter (fun j => negb (Nat.eqb i j)) U))).
  split.
  - intros H. apply (Permutation_in _ P) in H. apply in_map_iff in H. destruct H as (j' & E & H). injection E as <- <- <- <-.
    apply filter_In in H. destruct H as (H1 & H2). destruct (Nat.eqb_spec i j'); [discriminate|]. auto 10.
  - intros (-> & H1 & H2 & -> & ->). apply (Permutation_in _ (Permutation_sym P)). apply in_map_iff. exists j. split; [reflexivity|].
    apply filter_In. split; [exact H1|]. destruct (Nat.eqb_spec i j); [congruence|reflexivity].
Qed.

Lemma sequential_closed ceps seps N D d C L mk seeds : symmetric D -> served_alone N D d C L ceps seps ->
  (forall i, (1 <= i < N)%nat -> In i seeds) -> triangle D -> (forall n, 0 <= d n) ->
  exists rs, sequential_savings_init ceps seps N D d C L mk (clarke_wright_seq D) seeds = Some (encode rs) /\
    forall earlier r later i j q, rs = earlier ++ r :: later -> In j (concat later) -> extended r i j q ->
      ~ feasible D d C L ceps seps q \/ (mk = false /\ D i 0%nat + D 0%nat j < D i j).
Proof.
  intros Hs Ha Hse HT Hd. destruct (run_ok ceps seps D d C L mk (clarke_wright_seq D) Hs N seeds Ha Hse) as (rs & pts & E & _ & _ & _ & _ & _ & HC).
  exists rs. unfold sequential_savings_init. rewrite E. split; [reflexivity|]. intros l1 r l2 i j q El Hj Hq.
  destruct (HC HT Hd) with (l1 := l1) (r := r) (l2 := l2) (i := i) (j := j) (q := q) as [H|(H1 & H2)]; try assumption.
  - intros U i0 Hi0. split.
    + intros j0 Hj0. do 2 eexists. apply in_clarke_wright_seq. repeat split; auto. congruence.
    + intros s x i' j' H. apply in_clarke_wright_seq in H. destruct H as (-> & _ & _ & H & _). exact H.
  - intros _ U i0. apply sort_reverse_sorted.
  - now left.
  - right. split; [exact H1|]. unfold cw in H2. lia.
Qed.

(** ** The seed orders *)
Lemma seed_insert_perm D x l : Permutation (seed_insert D x l) (x :: l).
Proof. induction l as [|y l IH]; [reflexivity|]. cbn. destruct (seed_leb D x y); [reflexivity|]. rewrite IH. apply perm_swap. Qed.
Lemma seed_sort_perm D l : Permutation (seed_sort D l) l.
Proof. induction l as [|x l IH]; [reflexivity|]. cbn. rewrite seed_insert_perm. now constructor. Qed.

Lemma seed_order_complete N D m : (m = Savings -> N <> 2%nat) -> (2 <= N)%nat ->
  exists seeds, seed_order N D m = Some seeds /\ forall i, (1 <= i < N)%nat -> In i seeds.
Proof.
  intros Hm HN. assert (HR : forall i, (1 <= i < N)%nat -> In i (range 1 N)) by (intros i Hi; apply in_seq; lia).
  destruct m; cbn [seed_order].
  - eexists. split; [reflexivity|]. intros i Hi. apply (Permutation_in _ (Permutation_sym (seed_sort_perm D _))). auto.
  - eexists. split; [reflexivity|]. intros i Hi. apply in_rev. rewrite rev_involutive. apply (Permutation_in _ (Permutation_sym (seed_sort_perm D _))). auto.
  - eexists. split; [reflexivity|]. intros i Hi. apply in_rev. rewrite rev_involutive. auto.
  - eexists. split; [reflexivity|]. intros i Hi. apply in_seq. lia.
  - set (l := sort_reverse (flat_map (clarke_wright_seq D (range 1 N)) (range 1 N))).
    assert (H : forall i, (1 <= i < N)%nat -> In i (map snd l)).
    { intros i Hi. specialize (Hm eq_refl). apply in_map_iff. set (k := if Nat.eqb i 1 then 2%nat else 1%nat).
      assert (Hk : (1 <= k < N)%nat /\ k <> i) by (unfold k; destruct (Nat.eqb_spec i 1); lia). destruct Hk as (Hk1 & Hk2).
      exists (cw D k i, - D k i, k, i). split; [reflexivity|]. apply (Permutation_in _ (Permutation_sym (sort_reverse_perm _))).
      apply in_flat_map. exists k. split; [auto|]. apply in_clarke_wright_seq. repeat split; auto. }
    destruct l as [|a l'] eqn:El; [destruct (H 1%nat); lia|]. exists (map snd (a :: l')). split; [reflexivity|exact H].
Qed.
