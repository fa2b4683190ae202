(** * Proofs about the savings variants *)
From Coq Require Import Sorted ZifyBool ZifyNat.
From Verif Require Import Spec Spec_ls Spec_inter Spec_savings PyBase M_util M_routedata M_intra M_inter M_driver M_psavings M_savfam Spec_driver
  P_base P_util P_core P_intra2 P_inter P_driver P_driver2 P_driver3 P_psavings P_psavings2 P_ssavings P_ssavings2.

(** ** Single-route operators keep any feasibility *)
Lemma feasible_perm_cheaper D d C L ceps seps r q : Permutation r q -> route_cost D q < route_cost D r ->
  feasible D d C L ceps seps r -> feasible D d C L ceps seps q.
Proof.
  intros HP HC [H1 H2]. split; [now rewrite <- (demand_perm d r q HP)|]. unfold within in *. destruct L; [|exact I]. intros H. specialize (H2 H). lia.
Qed.

Lemma intra_search eps D d C L ls_ops first it max rs (good : list nat -> Prop) :
  0 <= eps -> symmetric D -> D 0%nat 0%nat = 0 -> d 0%nat = 0 -> (forall op, In op ls_ops -> (op <= 3)%nat) ->
  distinct_customers rs ->
  (forall r q, Permutation r q -> route_cost D q < route_cost D r -> good r -> good q) -> Forall good rs ->
  exists rs' fuel0, (forall fuel, (fuel0 <= fuel)%nat ->
      do_local_search eps (library eps D d C L) ls_ops (encode rs) D d first it max fuel = Some (encode rs')) /\
    length rs' = length (filter nonempty rs) /\ Permutation (concat rs') (concat rs) /\
    Forall good rs' /\ (rs' = filter nonempty rs \/ routes_cost D rs' < routes_cost D rs) /\
    (unlimited max -> forall op, In op ls_ops -> cannot_improve eps D d C L op rs').
Proof.
  intros He Hs HD0 Hd0 Hops Hdist Hg HG.
  destruct (library_optimum eps D d C L ls_ops first it max rs He Hs Hd0 HD0 Hdist) as (rs' & fuel0 & H & HO).
  { right. auto. }
  assert (Ho : forall op, In op ls_ops -> op_sound only_route good (cheaper D) (library eps D d C L op)).
  { intros op Hop. destruct (library_one eps D d C L He Hs op (Hops op Hop)) as (f & -> & Hf). now apply sound1_good. }
  destruct (driver_result eps it (library eps D d C L) first only_route good (cheaper D) ls_ops
     (fun r rd X => X) Ho D d rs Hdist (exact_only D d C _ _ (init_exact D d C rs Hd0 Hdist)) max fuel0 _ (H fuel0 (le_n _)))
     as (rs2 & rds & A1 & A2 & A3 & A4).
  pose proof (reach_cheaper _ _ _ _ A3) as A5. rewrite (filter_cost D rs HD0) in A5.
  apply reach_keep in A3. rewrite concat_nonempty in A3. destruct A3 as (B1 & B2 & B3).
  exists rs2, fuel0. split; [intros fuel Hf; rewrite (H fuel Hf); now rewrite A1|].
  split; [exact B1|]. split; [exact B2|]. split; [apply B3; now apply filter_good|]. split; [exact A5|].
  intros Hu op Hop.
  apply (optimum_cannot_improve eps D d C L ls_ops first rs2 rds op He Hs Hd0); [now apply (dist_perm rs)| |now apply A4|exact Hop].
  assert (Hx := Hops op Hop). destruct op as [|[|[|[|]]]]; try lia; exact A2.
Qed.

(** ** Choosing the best of several solutions *)
Lemma count_encode rs : Forall customers_only rs -> count_occ Nat.eq_dec (encode rs) 0%nat = S (length rs).
Proof.
  intros H. unfold encode. cbn [count_occ]. destruct (Nat.eq_dec 0 0); [|easy]. f_equal.
  induction H as [|r rs H _ IH]; [reflexivity|]. cbn [flat_map length]. rewrite !count_occ_app, IH.
  replace (count_occ Nat.eq_dec r 0%nat) with 0%nat; [reflexivity|]. symmetry. apply count_occ_not_In. intros Hin.
  unfold customers_only in H. rewrite Forall_forall in H. now apply (H 0%nat).
Qed.
Lemma candidate_encode {A} D (p : A) rs : Forall customers_only rs ->
  candidate D p (encode rs) = ((p, encode rs), routes_cost D rs, length rs).
Proof.
  intros H. unfold candidate. rewrite count_encode by assumption. rewrite objf_path, path_cost_encode. now rewrite Nat.sub_succ, Nat.sub_0_r.
Qed.

Lemma covers_only N rs : covers N rs -> Forall customers_only rs.
Proof. apply covers_customers. Qed.

Definition sols {A} (D : matrix) (l : list (A * list (list nat))) := map (fun x => candidate D (fst x) (encode (snd x))) l.

Lemma best_sols {A} mk D (l : list (A * list (list nat))) : l <> [] -> Forall (fun x => Forall customers_only (snd x)) l ->
  exists p rs, In (p, rs) l /\ best_of mk (sols D l) = Some (candidate D p (encode rs)) /\
    forall p' rs', In (p', rs') l -> not_beaten mk D rs rs'.
Proof.
  intros Hne HF. assert (H := best_of_spec mk (sols D l)). destruct (best_of mk (sols D l)) as [b|].
  - destruct H as (l1 & l2 & E & H1 & H2).
    assert (Hb : In b (sols D l)) by (rewrite E; apply in_or_app; right; now left).
    apply in_map_iff in Hb. destruct Hb as ([p rs] & <- & Hin). cbn [fst snd] in *. exists p, rs. split; [exact Hin|]. split; [reflexivity|].
    intros p' rs' Hin' Hbe. rewrite Forall_forall in HF.
    assert (Hc : In (candidate D p' (encode rs')) (sols D l)) by (apply in_map_iff; now exists (p', rs')).
    assert (Hcb : cbeats mk (candidate D p' (encode rs')) (candidate D p (encode rs))).
    { rewrite (candidate_encode D p' rs') by exact (HF (p', rs') Hin'). rewrite (candidate_encode D p rs) by exact (HF (p, rs) Hin). exact Hbe. }
    rewrite E in Hc. apply in_app_or in Hc. destruct Hc as [Hc|[Hc|Hc]].
    + specialize (H1 _ Hc). unfold cbeats in *. apply (beats_irrefl mk (snd (fst (candidate D p (encode rs)))) (snd (candidate D p (encode rs)))).
      eapply beats_trans; eassumption.
    + rewrite Hc in Hcb. now apply beats_irrefl in Hcb.
    + now apply (H2 _ Hc).
  - destruct l; [easy|discriminate].
Qed.

Lemma best_sols_app {A} D (l1 l2 : list (A * list (list nat))) : sols D (l1 ++ l2) = sols D l1 ++ sols D l2.
Proof. apply map_app. Qed.

Lemma all_some_map {A B} (f : A -> option B) (g : A -> B) l : (forall x, In x l -> f x = Some (g x)) -> all_some (map f l) = Some (map g l).
Proof.
  induction l as [|x l IH]; intros H; [reflexivity|]. cbn. rewrite (H x) by now left. rewrite IH; [reflexivity|]. intros y Hy. apply H. now right.
Qed.

Section Fam.
Variables (ceps seps : Z) (N : nat) (D : matrix) (d : demands) (C L : limit) (mk : bool).
Hypothesis HN : (2 <= N)%nat.
Hypothesis Hsym : symmetric D.
Hypothesis Halone : served_alone N D d C L ceps seps.

Definition okr rs := serves N D d C L ceps seps rs /\ (mk = false -> routes_cost D rs <= routes_cost D (star_routes N)).

Lemma okr_customers rs : okr rs -> Forall customers_only rs.
Proof. intros ((H & _) & _). now apply (covers_only N). Qed.

Lemma ps_sol_ok savings : valid_pairs N savings -> exists rs, ps_sol ceps seps N D d C L mk savings = Some (encode rs) /\ okr rs.
Proof.
  intros HV. destruct (parallel_result ceps seps N D d C L mk savings HN Hsym Halone HV) as (rs & E & H1 & H2 & H3 & H4).
  exists rs. unfold ps_sol. rewrite E. split; [reflexivity|]. repeat split; assumption.
Qed.

Lemma savings_list_in value s x i j : In (s, x, i, j) (savings_list N D value) <-> (1 <= i < j)%nat /\ (j < N)%nat /\ s = value i j /\ x = - D i j.
Proof.
  unfold savings_list.
  assert (P := sort_reverse_perm (flat_map (fun i => map (fun j => (value i j, - D i j, i, j)) (range (i + 1) N)) (range 1 N))).
  split.
  - intros H. apply (Permutation_in _ P) in H. apply in_flat_map in H. destruct H as (i' & Hi & H). apply in_map_iff in H.
    destruct H as (j' & E & Hj). injection E as <- <- <- <-. unfold range in *. apply in_seq in Hi, Hj. lia.
  - intros (H1 & H2 & -> & ->). apply (Permutation_in _ (Permutation_sym P)). apply in_flat_map. exists i. split.
    + apply in_seq. lia.
    + apply in_map_iff. exists j. split; [reflexivity|]. apply in_seq. lia.
Qed.
Lemma savings_list_valid value : valid_pairs N (savings_list N D value).
Proof. intros s x i j H. apply savings_list_in in H. lia. Qed.

Lemma gaskell_ok m : exists rs, gaskell_savings_init ceps seps N D d C L mk m = Some (Some (encode rs)) /\
  serves N D d C L ceps seps rs /\ (mk = false -> routes_cost D rs <= routes_cost D (star_routes N)) /\
  forall savings, In savings (gaskell_functions N D m) ->
    exists rs', parallel_savings_init ceps seps N D d C L mk savings = Some (Some (encode rs')) /\ serves N D d C L ceps seps rs' /\ not_beaten mk D rs rs'.
Proof.
  assert (H : exists l : list (unit * list (list nat)), 
    all_some (map (ps_sol ceps seps N D d C L mk) (gaskell_functions N D m)) = Some (map (fun x => encode (snd x)) l) /\ Forall (fun x => okr (snd x)) l /\ l <> [] /\
    forall savings, In savings (gaskell_functions N D m) -> 
      exists rs', parallel_savings_init ceps seps N D d C L mk savings = Some (Some (encode rs')) /\ exists p, In (p, rs') l).
  { assert (G : forall fs, (forall f, In f fs -> valid_pairs N f) -> fs <> [] -> exists l : list (unit * list (list nat)),
       all_some (map (ps_sol ceps seps N D d C L mk) fs) = Some (map (fun x => encode (snd x)) l) /\ Forall (fun x => okr (snd x)) l /\ l <> [] /\
       forall savings, In savings fs -> exists rs', parallel_savings_init ceps seps N D d C L mk savings = Some (Some (encode rs')) /\ exists p, In (p, rs') l).
    { intros fs HV Hne. induction fs as [|f fs IH]; [easy|]. destruct (ps_sol_ok f (HV f (or_introl eq_refl))) as (rs & E & Hrs).
      assert (E' : parallel_savings_init ceps seps N D d C L mk f = Some (Some (encode rs))).
      { unfold ps_sol in E. destruct (parallel_savings_init _ _ _ _ _ _ _ _ _) as [[?|]|]; congruence. }
      destruct fs as [|f2 fs].
      - exists [(tt, rs)]. cbn. rewrite E. cbn. split; [reflexivity|]. split; [now constructor|]. split; [discriminate|].
        intros s [<-|[]]. exists rs. split; [exact E'|]. exists tt. now left.
      - destruct IH as (l & E2 & F2 & _ & H2); [intros g Hg; apply HV; now right|discriminate|].
        exists ((tt, rs) :: l). change (all_some (map (ps_sol ceps seps N D d C L mk) (f :: f2 :: fs))) with
          (match ps_sol ceps seps N D d C L mk f with None => None | Some x => option_map (cons x) (all_some (map (ps_sol ceps seps N D d C L mk) (f2 :: fs))) end).
        rewrite E, E2. split; [reflexivity|]. split; [now constructor|]. split; [discriminate|].
        intros s [<-|Hs]; [exists rs; split; [exact E'|]; exists tt; now left|]. destruct (H2 s Hs) as (rs' & A & p & B). exists rs'. split; [exact A|]. exists p. now right. }
    apply G; [|destruct m; discriminate]. intros f Hf. destruct m; cbn in Hf; destruct Hf as [<-|Hf]; try apply savings_list_valid; destruct Hf as [<-|[]] || destruct Hf; apply savings_list_valid. }
  destruct H as (l & E & HF & Hne & HS). unfold gaskell_savings_init. rewrite E. cbn [option_map].
  replace (map (candidate D tt) (map (fun x : unit * list (list nat) => encode (snd x)) l)) with (sols D l).
  2: { unfold sols. rewrite map_map. apply map_ext. intros [[] ?]. reflexivity. }
  destruct (best_sols mk D l Hne) as (p & rs & Hin & Eb & Hb).
  { eapply Forall_impl; [|exact HF]. intros x. apply okr_customers. }
  rewrite Eb. cbn. exists rs. split; [reflexivity|]. rewrite Forall_forall in HF. destruct (HF _ Hin) as (A1 & A2). split; [exact A1|]. split; [exact A2|].
  intros s Hs. destruct (HS s Hs) as (rs' & B1 & p' & B2). exists rs'. split; [exact B1|]. split; [exact (proj1 (HF _ B2))|]. now apply (Hb p').
Qed.

(** ** Paessens *)
Hypothesis HD0 : D 0%nat 0%nat = 0.
Hypothesis Hd0 : d 0%nat = 0.
Hypothesis Hseps : 0 <= seps.

Lemma covers_distinct rs : covers N rs -> distinct_customers rs.
Proof.
  intros H. unfold covers in H. split; [apply (Permutation_NoDup (Permutation_sym H)), seq_NoDup|].
  apply Forall_forall. intros x Hx. apply (Permutation_in _ H) in Hx. apply in_seq in Hx. lia.
Qed.

Lemma nodup_no_repeats r : NoDup r -> no_repeats r.
Proof. intros H l1 l2 x ->. apply NoDup_app_r in H. inversion H as [|? ? H1 _]; subst. apply H1. now left. Qed.
Lemma covers_no_repeats rs : covers N rs -> Forall no_repeats rs.
Proof.
  intros H. apply Forall_forall. intros r Hr. apply nodup_no_repeats. destruct (covers_distinct rs H) as (HNd & _).
  apply in_split in Hr. destruct Hr as (a & b & ->). rewrite concat_app in HNd. cbn [concat] in HNd.
  apply NoDup_app_r in HNd. apply (Permutation_NoDup (Permutation_app_comm _ _)) in HNd. now apply NoDup_app_r in HNd.
Qed.

Definition opt3 (do3 : bool) rs := do3 = true -> cannot_improve seps D d C L 1 rs.

Lemma paessens_run_ok do3 gf : exists rs fuel0, (forall fuel, (fuel0 <= fuel)%nat ->
    paessens_run seps ceps N D d C L mk do3 fuel gf = Some (encode rs)) /\ okr rs /\ opt3 do3 rs.
Proof.
  destruct (ps_sol_ok (paessens_list N D (fst gf) (snd gf)) (savings_list_valid _)) as (rs & E & Hrs).
  assert (HW : forall q, covers N q -> Forall (fun r => r <> []) q -> without_empty_routes (encode q) = encode q).
  { intros q H1 H2. destruct (weR_all D q HD0 (covers_only N q H1) (covers_no_repeats q H1)) as (-> & _). now rewrite filter_nonempty_id. }
  destruct do3.
  - destruct Hrs as ((H1 & H2 & H3) & H4).
    destruct (intra_search seps D d C L [1%nat] false IterAll None rs (fun r => r <> [] /\ feasible D d C L ceps seps r)) as (rs' & fuel0 & A1 & A2 & A3 & A4 & A5 & A6); try assumption.
    { intros op [<-|[]]. lia. }
    { now apply covers_distinct. }
    { intros r q HP HC (G1 & G2). split; [|now apply (feasible_perm_cheaper D d C L ceps seps r)]. intros ->. symmetry in HP. apply Permutation_nil in HP. contradiction. }
    { apply Forall_forall. intros r Hr. rewrite Forall_forall in *. split; auto. }
    assert (C' : covers N rs') by (unfold covers in *; now rewrite A3).
    assert (N' : Forall (fun r => r <> []) rs') by (eapply Forall_impl; [|exact A4]; tauto).
    exists rs', fuel0. split; [|split; [split; [split; [exact C'|split; [exact N'|]]|]|]].
    + intros fuel Hf. unfold paessens_run. rewrite E. rewrite (A1 fuel Hf). f_equal. now apply HW.
    + eapply Forall_impl; [|exact A4]. tauto.
    + intros Hmk. specialize (H4 Hmk). destruct A5 as [->|A5]; [|lia]. now rewrite (filter_nonempty_id _ H2).
    + intros _. apply A6; [now left|now left].
  - exists rs, 0%nat. split; [|split; [exact Hrs|intros X; discriminate]]. intros fuel _. unfold paessens_run. rewrite E. f_equal. apply HW; apply Hrs.
Qed.

Lemma paessens_runs_ok do3 ps : exists l fuel0, map fst l = ps /\ (forall fuel, (fuel0 <= fuel)%nat ->
    paessens_runs seps ceps N D d C L mk do3 fuel ps = Some (sols D l)) /\ 
    Forall (fun x => okr (snd x) /\ opt3 do3 (snd x) /\ forall fuel, (fuel0 <= fuel)%nat -> paessens_run seps ceps N D d C L mk do3 fuel (fst x) = Some (encode (snd x))) l.
Proof.
  induction ps as [|gf ps IH].
  - exists [], 0%nat. split; [reflexivity|]. split; [reflexivity|constructor].
  - destruct IH as (l & f0 & E & H1 & H2). destruct (paessens_run_ok do3 gf) as (rs & f1 & A1 & A2 & A3).
    exists ((gf, rs) :: l), (Nat.max f0 f1). split; [cbn; now rewrite E|]. split.
    + intros fuel Hf. specialize (H1 fuel ltac:(lia)). unfold paessens_runs in *. cbn [map]. rewrite (A1 fuel) by lia. cbn [option_map all_some].
      destruct (all_some _) as [x|]; [|discriminate]. cbn in *. injection H1 as H1. now rewrite H1.
    + constructor.
      * split; [exact A2|]. split; [exact A3|]. intros fuel Hf. apply A1. lia.
      * eapply Forall_impl; [|exact H2]. intros x (B1 & B2 & B3). split; [exact B1|]. split; [exact B2|]. intros fuel Hf. apply B3. lia.
Qed.

Lemma paessens_ok s do3 : base_parameters s <> [] ->
  exists rs fuel0, (forall fuel, (fuel0 <= fuel)%nat ->
      paessens_savings_init seps ceps N D d C L mk s do3 fuel = Some (Some (encode rs))) /\
    serves N D d C L ceps seps rs /\ (mk = false -> routes_cost D rs <= routes_cost D (star_routes N)) /\
    (do3 = true -> cannot_improve seps D d C L 1 rs) /\
    forall gf, In gf (base_parameters s) -> exists rs', (forall fuel, (fuel0 <= fuel)%nat ->
      paessens_run seps ceps N D d C L mk do3 fuel gf = Some (encode rs')) /\ serves N D d C L ceps seps rs' /\ not_beaten mk D rs rs'.
Proof.
  intros Hne.
  assert (Fin : forall l fuel0, l <> [] -> incl (base_parameters s) (map fst l) ->
    Forall (fun x => okr (snd x) /\ opt3 do3 (snd x) /\ forall fuel, (fuel0 <= fuel)%nat -> paessens_run seps ceps N D d C L mk do3 fuel (fst x) = Some (encode (snd x))) l ->
    (forall fuel, (fuel0 <= fuel)%nat -> paessens_savings_init seps ceps N D d C L mk s do3 fuel = Some (option_map (fun c => snd (fst (fst c))) (best_of mk (sols D l)))) ->
    exists rs fuel0, (forall fuel, (fuel0 <= fuel)%nat ->
      paessens_savings_init seps ceps N D d C L mk s do3 fuel = Some (Some (encode rs))) /\
    serves N D d C L ceps seps rs /\ (mk = false -> routes_cost D rs <= routes_cost D (star_routes N)) /\
    (do3 = true -> cannot_improve seps D d C L 1 rs) /\
    forall gf, In gf (base_parameters s) -> exists rs', (forall fuel, (fuel0 <= fuel)%nat ->
      paessens_run seps ceps N D d C L mk do3 fuel gf = Some (encode rs')) /\ serves N D d C L ceps seps rs' /\ not_beaten mk D rs rs').
  { intros l fuel0 Hl Hincl HF HE. destruct (best_sols mk D l Hl) as (p & rs & Hin & Eb & Hb).
    { eapply Forall_impl; [|exact HF]. intros x (Hx & _). now apply okr_customers. }
    rewrite Forall_forall in HF. destruct (HF _ Hin) as ((A1 & A2) & A3 & _). exists rs, fuel0. split.
    - intros fuel Hf. rewrite (HE fuel Hf), Eb. reflexivity.
    - split; [exact A1|]. split; [exact A2|]. split; [exact A3|]. intros gf Hgf. apply Hincl in Hgf. apply in_map_iff in Hgf.
      destruct Hgf as ([gf' rs'] & <- & Hin'). destruct (HF _ Hin') as ((B' & _) & _ & B). cbn [fst snd] in *. exists rs'. split; [exact B|]. split; [exact B'|]. now apply (Hb gf'). }
  destruct s as [| |ps]; cbn [base_parameters] in *.
  - destruct (paessens_runs_ok do3 m1_parameters) as (l & f0 & E & H1 & H2). apply (Fin l f0).
    + intros ->. now rewrite <- E in Hne.
    + rewrite E. apply incl_refl.
    + exact H2.
    + intros fuel Hf. unfold paessens_savings_init. now rewrite (H1 fuel Hf).
  - destruct (paessens_runs_ok do3 m4_parameters) as (l & f0 & E & H1 & H2).
    assert (Hl : l <> []) by (intros ->; now rewrite <- E in Hne).
    destruct (best_sols mk D l Hl) as (p & rs & Hin & Eb & _).
    { eapply Forall_impl; [|exact H2]. intros x (Hx & _). now apply okr_customers. }
    destruct (paessens_runs_ok do3 (m4_finetune p)) as (l' & f0' & E' & H1' & H2').
    apply (Fin (l ++ l') (Nat.max f0 f0')).
    + destruct l; [easy|discriminate].
    + rewrite map_app, E. apply incl_appl, incl_refl.
    + apply Forall_app. split.
      * eapply Forall_impl; [|exact H2]. intros x (B1 & B2 & B3). split; [exact B1|]. split; [exact B2|]. intros fuel Hf. apply B3. lia.
      * eapply Forall_impl; [|exact H2']. intros x (B1 & B2 & B3). split; [exact B1|]. split; [exact B2|]. intros fuel Hf. apply B3. lia.
    + intros fuel Hf. unfold paessens_savings_init. rewrite (H1 fuel) by lia. rewrite Eb. cbn [candidate fst snd]. rewrite (H1' fuel) by lia.
      now rewrite best_sols_app.
  - destruct (paessens_runs_ok do3 ps) as (l & f0 & E & H1 & H2). apply (Fin l f0).
    + intros ->. now rewrite <- E in Hne.
    + rewrite E. apply incl_refl.
    + exact H2.
    + intros fuel Hf. unfold paessens_savings_init. now rewrite (H1 fuel Hf).
Qed.
End Fam.
