(** * Two phase heuristic: routes while they are built, and phase one *)
From Verif Require Import Spec Spec_inter Spec_savings Spec_rfcs Spec_tyagi PyBase M_util M_psavings M_cmt P_base P_psavings P_nn2 P_ssavings P_tyagi P_tyagi4.
Require Import ZifyBool ZifyNat Lia.

Lemma first_best_in key : forall l, l <> [] -> In (first_best key l) l /\ forall y, In y l -> key y <= key (first_best key l).
Proof.
  intros [|x t] H; [congruence|]. clear H. cbn [first_best].
  assert (G : forall t b, let z := fold_left (fun b y => if key b <? key y then y else b) t b in
              (In z (b :: t)) /\ forall y, In y (b :: t) -> key y <= key z).
  { clear. induction t as [|y t IH]; intros b; cbn [fold_left].
    - split; [now left|]. intros y [->|[]]. lia.
    - destruct (key b <? key y) eqn:E.
      + destruct (IH y) as (A & B). split; [destruct A as [<-|A]; [right; now left|right; now right]|].
        intros z [->|[->|Hz]]; [specialize (B y (or_introl eq_refl)); lia|apply B; now left|apply B; now right].
      + destruct (IH b) as (A & B). split; [destruct A as [<-|A]; [now left|right; now right]|].
        intros z [->|[->|Hz]]; [apply B; now left|specialize (B b (or_introl eq_refl)); lia|apply B; now right]. }
  exact (G t x).
Qed.
Lemma pair_insert_perm lt a l : Permutation (pair_insert lt a l) (a :: l).
Proof. induction l as [|b t IH]; [reflexivity|]. cbn. destruct (lt b a); [|reflexivity]. rewrite IH. apply perm_swap. Qed.
Lemma pair_sort_perm lt l : Permutation (pair_sort lt l) l.
Proof. induction l as [|a t IH]; [reflexivity|]. cbn. unfold pair_sort in *. rewrite pair_insert_perm. now constructor. Qed.
Lemma dict_del_in i l x : In x (dict_del i l) <-> In x l /\ x <> i.
Proof. unfold dict_del. rewrite filter_In. destruct (Nat.eqb_spec i x); cbn; intuition congruence. Qed.
Lemma dict_del_nodup i l : NoDup l -> NoDup (dict_del i l).
Proof. apply NoDup_filter. Qed.
Lemma dict_del_perm i l : NoDup l -> In i l -> Permutation (i :: dict_del i l) l.
Proof.
  intros Hn Hi. apply NoDup_Permutation; [constructor; [rewrite dict_del_in; tauto|now apply dict_del_nodup]|exact Hn|].
  intros x. cbn [In]. rewrite dict_del_in. split; [intros [->|[]]; tauto|]. intros Hx. destruct (Nat.eq_dec i x); [now left|right; split; [exact Hx|congruence]].
Qed.
Lemma within_le' lim eps x y : x <= y -> within lim eps y -> within lim eps x.
Proof. unfold within. destruct lim; [|trivial]. intros H1 H2 H3. specialize (H2 H3). lia. Qed.
Lemma is_set_truthy (X : limit) : is_set X = true <-> exists v, truthy X = Some v.
Proof. unfold is_set. destruct (truthy X) eqn:E; split; try discriminate; eauto. intros [v Hv]. discriminate. Qed.
Lemma removelast_wrap {A} (x y : A) l : removelast (x :: l ++ [y]) = x :: l.
Proof. change (x :: l ++ [y]) with ((x :: l) ++ [y]). apply removelast_last. Qed.

Section Cmt.
Variables (ceps seps : Z) (N : nat) (D : matrix) (d : demands) (C L : limit) (f : tsp).
Hypothesis Hf : solver N D f.
Hypothesis HfL : limit_set L -> shortens N D f.

Definition customers_in (r : list nat) : Prop := forall j, In j r -> (1 <= j < N)%nat.
(** A route state and its customers *)
Record on_route (st : rstate) (r : list nat) : Prop := {
  or_route : rs_route st = 0%nat :: r;
  or_ne : r <> [];
  or_nodup : NoDup r;
  or_in : customers_in r;
  or_dem : is_set C = true -> rs_demand st = demand d r;
  or_cost : rs_cost st = route_cost D r;
  or_feas : feasible D d C L ceps seps r }.

Lemma demand_snoc r i : demand d (r ++ [i]) = demand d r + d i.
Proof. unfold demand, sumZ. rewrite map_app, fold_right_app. cbn [map fold_right]. induction (map d r); cbn [fold_right]; lia. Qed.
Lemma demand_perm r r' : Permutation r r' -> demand d r = demand d r'.
Proof. unfold demand, sumZ. intros P. apply Permutation_map with (f := d) in P. induction P; cbn [fold_right] in *; lia. Qed.
Lemma new_on_route k : (1 <= k < N)%nat -> feasible D d C L ceps seps [k] -> on_route (new_route D d C k) [k].
Proof.
  intros Hk Hfe. constructor; cbn [new_route rs_route rs_demand rs_cost]; try reflexivity; try exact Hfe; try discriminate.
  - constructor; [intros []|constructor].
  - intros j [->|[]]; exact Hk.
  - unfold is_set. destruct (truthy C); [|discriminate]. intros _. unfold demand. cbn. lia.
  - unfold route_cost, wrap. cbn. lia.
Qed.
Lemma snoc_cost r i : r <> [] -> route_cost D (r ++ [i]) = route_cost D r - D (last (0%nat :: r) 0%nat) 0%nat + D (last (0%nat :: r) 0%nat) i + D i 0%nat.
Proof.
  intros Hr. rewrite !route_cost_ends by (try exact Hr; now destruct r). rewrite path_cost_snoc by exact Hr.
  rewrite last_last. destruct r as [|x t]; [congruence|]. cbn [hd app]. change (last (0%nat :: x :: t) 0%nat) with (last (x :: t) 0%nat). lia.
Qed.
Lemma exceeds_demand st r i : on_route st r -> exceeds C ceps (rs_demand st + d i) = exceeds C ceps (demand d (r ++ [i])).
Proof.
  intros H. unfold exceeds. destruct (truthy C) as [c|] eqn:E; [|reflexivity]. rewrite (or_dem _ _ H), demand_snoc by (apply is_set_truthy; eauto). reflexivity.
Qed.
Lemma put_on_route st r i st' : on_route st r -> (1 <= i < N)%nat -> ~ In i r -> try_insert ceps seps D d C L f st i = Put st' ->
  exists r', on_route st' r' /\ Permutation r' (r ++ [i]).
Proof using Hf.
  intros H Hi Hni. unfold try_insert. rewrite (exceeds_demand st r i H).
  destruct (exceeds C ceps (demand d (r ++ [i]))) eqn:EC; [discriminate|]. apply exceeds_within in EC.
  assert (Hc : customers_in (r ++ [i])) by (intros j Hj; apply in_app_or in Hj as [Hj|[<-|[]]]; [now apply (or_in _ _ H)|exact Hi]).
  assert (Hnd : NoDup (r ++ [i])) by (apply (Permutation_NoDup (Permutation_cons_append r i)); constructor; [exact Hni|apply (or_nodup _ _ H)]).
  assert (Hne : r ++ [i] <> []) by now destruct r.
  assert (Hd : forall q, Permutation q (r ++ [i]) -> is_set C = true -> match truthy C with Some _ => rs_demand st + d i | None => rs_demand st end = demand d q).
  { intros q Hq Hs. apply is_set_truthy in Hs as [v Hv] . rewrite Hv, (demand_perm _ _ Hq), demand_snoc, (or_dem _ _ H); [reflexivity|]. apply is_set_truthy; eauto. }
  rewrite (or_route _ _ H), (or_cost _ _ H). rewrite <- snoc_cost by apply (or_ne _ _ H).
  destruct (exceeds L seps (route_cost D (r ++ [i]))) eqn:EL.
  - change ((0%nat :: r) ++ [i]) with (0%nat :: (r ++ [i])).
    destruct (Hf (r ++ [i]) Hne Hnd Hc) as (l' & E & P). rewrite E. cbv iota beta.
    destruct (exceeds L seps (route_cost D l')) eqn:EL2; [discriminate|]. intros X. injection X as <-. exists l'. split; [|exact P].
    apply exceeds_within in EL2. constructor; cbn [rs_route rs_demand rs_cost].
    + apply removelast_wrap.
    + intros ->. apply Permutation_nil in P. congruence.
    + now apply (Permutation_NoDup (Permutation_sym P)).
    + intros j Hj. apply Hc. now apply (Permutation_in _ P).
    + now apply Hd.
    + reflexivity.
    + split; [rewrite (demand_perm _ _ P); exact EC|exact EL2].
  - intros X. injection X as <-. exists (r ++ [i]). split; [|reflexivity]. apply exceeds_within in EL. constructor; cbn [rs_route rs_demand rs_cost]; try assumption; try reflexivity.
    + now apply Hd.
    + split; assumption.
Qed.
Lemma close_on_route st r : on_route st r -> exists r', on_route (close_route f st) r' /\ Permutation r' r /\
  (shortens N D f -> route_cost D r' <= route_cost D r).
Proof using Hf HfL.
  intros H. unfold close_route. destruct (rs_updated st) eqn:E; [exists r; split; [exact H|split; [reflexivity|lia]]|].
  rewrite (or_route _ _ H).
  assert (G : exists l', f (0%nat :: r) = (0%nat :: l' ++ [0%nat], route_cost D l') /\ Permutation l' r /\ (shortens N D f -> route_cost D l' <= route_cost D r)).
  { destruct (Hf r (or_ne _ _ H) (or_nodup _ _ H) (or_in _ _ H)) as (l' & E1 & P). exists l'. split; [exact E1|split; [exact P|]].
    intros Hs. destruct (Hs r (or_ne _ _ H) (or_nodup _ _ H) (or_in _ _ H)) as (l2 & E2 & _ & Hle). rewrite E1 in E2. injection E2 as E2 E3. lia. }
  destruct G as (l' & E1 & P & Hle). rewrite E1. exists l'. split; [|split; [exact P|exact Hle]].
  constructor; cbn [rs_route rs_demand rs_cost].
  - apply removelast_wrap.
  - intros ->. apply Permutation_nil in P. now apply (or_ne _ _ H).
  - apply (Permutation_NoDup (Permutation_sym P)). apply (or_nodup _ _ H).
  - intros j Hj. apply (or_in _ _ H). now apply (Permutation_in _ P).
  - intros Hs. rewrite (or_dem _ _ H Hs). symmetry. now apply demand_perm.
  - reflexivity.
  - destruct (or_feas _ _ H) as (F1 & F2). split; [now rewrite (demand_perm _ _ P)|].
    destruct (is_set L) eqn:EL; [|now apply within_unset]. apply (within_le' _ _ _ _ (Hle (HfL (proj1 (is_set_limit L) EL)))). exact F2.
Qed.

(** ** Phase one *)
Lemma p1_fill_ok : forall cands st r un, on_route st r -> NoDup cands -> incl cands un -> NoDup (r ++ un) -> customers_in un ->
  let '(st2, un2, pts) := p1_fill ceps seps D d C L f cands st un in
  exists r2, on_route st2 r2 /\ Permutation (r2 ++ un2) (r ++ un) /\ incl r r2 /\
    forall u, In u pts -> exists b, Permutation (b ++ u) (r ++ un) /\ feasible D d C L ceps seps b.
Proof using Hf.
  induction cands as [|i cands IH]; intros st r un H Hn Hin Hnd Hc; cbn [p1_fill].
  - exists r. split; [exact H|split; [reflexivity|split; [intros x; tauto|intros u []]]].
  - apply NoDup_cons_iff in Hn as (Hi & Hn).
    assert (Hiu : In i un) by (apply Hin; now left).
    assert (Hir : ~ In i r).
    { intros X. clear - X Hiu Hnd. induction r as [|y r IHr]; [destruct X|]. cbn in Hnd. apply NoDup_cons_iff in Hnd as (A & B). destruct X as [->|X]; [apply A, in_or_app; now right|auto]. }
    destruct (try_insert ceps seps D d C L f st i) as [| |st'] eqn:E.
    + apply IH; try assumption. intros x Hx. apply Hin. now right.
    + apply IH; try assumption. intros x Hx. apply Hin. now right.
    + destruct (put_on_route _ _ _ _ H (Hc i Hiu) Hir E) as (r' & H' & P).
      assert (Hun : NoDup un) by (clear - Hnd; induction r; [exact Hnd|]; cbn in Hnd; apply NoDup_cons_iff in Hnd; tauto).
      assert (PP : Permutation (r' ++ dict_del i un) (r ++ un)).
      { rewrite P, <- app_assoc. apply Permutation_app_head. now apply dict_del_perm. }
      specialize (IH st' r' (dict_del i un) H' Hn).
      destruct (p1_fill ceps seps D d C L f cands st' (dict_del i un)) as [[st2 un2] pts].
      destruct IH as (r2 & A1 & A2 & A3 & A4).
      * intros x Hx. apply dict_del_in. split; [apply Hin; now right|]. intros ->. auto.
      * now apply (Permutation_NoDup (Permutation_sym PP)).
      * intros x Hx. apply dict_del_in in Hx. now apply Hc.
      * exists r2. split; [exact A1|split; [now rewrite A2|split]].
        -- intros x Hx. apply A3. apply (Permutation_in _ (Permutation_sym P)). apply in_or_app; now left.
        -- intros u [<-|Hu]; [exists r'; split; [exact PP|apply (or_feas _ _ H')]|]. destruct (A4 u Hu) as (b & B1 & B2). exists b. split; [now rewrite B1|exact B2].
Qed.
Lemma candidates_in lam k un : Permutation (p1_candidates D lam k un) un.
Proof. unfold p1_candidates. rewrite pair_sort_perm, map_map. cbn [snd]. now rewrite map_id. Qed.
Lemma seed_of_in m un : un <> [] -> In (seed_of D d m un) un.
Proof. intros H. destruct m; try (now apply first_best_in). destruct un; [congruence|now left]. Qed.

Definition open_sol (rs : list (list nat)) : list nat := flat_map (fun r => 0%nat :: r) rs.
Lemma open_sol_app a b : open_sol (a ++ b) = open_sol a ++ open_sol b. Proof. apply flat_map_app. Qed.
Lemma open_sol_encode rs : open_sol rs ++ [0%nat] = encode rs.
Proof.
  unfold encode, open_sol. induction rs as [|r rs IH]; [reflexivity|]. cbn [flat_map app]. f_equal. rewrite <- !app_assoc. f_equal. exact IH.
Qed.
Lemma open_sol_in rs x : x <> 0%nat -> (In x (open_sol rs) <-> In x (concat rs)).
Proof.
  intros Hx. unfold open_sol. rewrite in_flat_map, in_concat. split.
  - intros (r & Hr & [X|X]); [congruence|eauto].
  - intros (r & Hr & X). exists r. split; [exact Hr|now right].
Qed.

Definition good (r : list nat) : Prop := r <> [] /\ feasible D d C L ceps seps r.
(** What an interrupt finds: complete routes, one route in the making and the others *)
Definition halfway (sol un : list nat) : Prop :=
  exists rs b, sol = open_sol rs /\ Forall good rs /\ Permutation (concat rs ++ b ++ un) (seq 1 (N - 1)) /\ (b = [] \/ feasible D d C L ceps seps b).

Lemma app_nodup_l {A} (a b : list A) : NoDup (a ++ b) -> NoDup a.
Proof. intros H. induction a; [constructor|]. cbn in H. apply NoDup_cons_iff in H as (H1 & H2). constructor; [|auto]. intros X. apply H1, in_or_app. now left. Qed.
Lemma app_nodup_r {A} (a b : list A) : NoDup (a ++ b) -> NoDup b.
Proof. intros H. induction a; [exact H|]. cbn in H. apply NoDup_cons_iff in H. tauto. Qed.

Hypothesis Halone : served_alone N D d C L ceps seps.

Lemma p1_loop_ok m lam : forall k seeds rs total un, (length un <= k)%nat ->
  Forall good rs -> Forall2 (fun s r => In s r) seeds rs -> total = routes_cost D rs -> Permutation (concat rs ++ un) (seq 1 (N - 1)) ->
  let out := p1_loop ceps seps D d C L f m lam k seeds (open_sol rs) total un in
  (exists rs', p1_sol out = open_sol (rs ++ rs') /\ p1_cost out = routes_cost D (rs ++ rs') /\ serves N D d C L ceps seps (rs ++ rs') /\
     Forall2 (fun s r => In s r) (p1_seeds out) (rs ++ rs')) /\
  Forall (fun p => halfway (fst p) (snd p)) (p1_points out).
Proof using Hf HfL Halone.
  induction k as [|k IH]; intros seeds rs total un Hk Hg Hs Ht Hp.
  - assert (un = []) by (destruct un; [reflexivity|cbn in Hk; lia]). subst un. cbn [p1_loop p1_sol p1_cost p1_points p1_seeds]. rewrite app_nil_r in Hp. split.
    + exists []. rewrite app_nil_r. repeat (split; try assumption); try reflexivity; eapply Forall_impl; try exact Hg; now intros r (A & B).
    + constructor; [|constructor]. exists rs, []. cbn. rewrite app_nil_r. auto.
  - destruct un as [|u un0] eqn:Eu.
    + cbn [p1_loop p1_sol p1_cost p1_points p1_seeds]. rewrite app_nil_r in Hp. split.
      * exists []. rewrite app_nil_r. repeat (split; try assumption); try reflexivity; eapply Forall_impl; try exact Hg; now intros r (A & B).
      * constructor; [|constructor]. exists rs, []. cbn. rewrite app_nil_r. auto.
    + cbn [p1_loop]. rewrite <- Eu in *. set (s := seed_of D d m un). set (un1 := dict_del s un).
      assert (Hnd : NoDup (concat rs ++ un)) by (apply (Permutation_NoDup (Permutation_sym Hp)), seq_NoDup).
      assert (Hun : NoDup un) by now apply app_nodup_r in Hnd.
      assert (Hci : customers_in un). { intros j Hj. assert (X : In j (seq 1 (N - 1))) by (apply (Permutation_in _ Hp), in_or_app; now right). apply in_seq in X. lia. }
      assert (Hsu : In s un) by (apply seed_of_in; rewrite Eu; discriminate).
      assert (Hsc : (1 <= s < N)%nat) by now apply Hci.
      pose proof (dict_del_perm s un Hun Hsu) as Pdel. fold un1 in Pdel.
      pose proof (p1_fill_ok (p1_candidates D lam s un1) (new_route D d C s) [s] un1 (new_on_route s Hsc (Halone s Hsc))) as F.
      destruct (p1_fill ceps seps D d C L f (p1_candidates D lam s un1) (new_route D d C s) un1) as [[st un2] pts].
      destruct F as (r & R1 & R2 & R3 & R4).
      * apply (Permutation_NoDup (Permutation_sym (candidates_in lam s un1))). now apply dict_del_nodup.
      * intros x Hx. now apply (Permutation_in _ (candidates_in lam s un1)).
      * cbn [app]. now apply (Permutation_NoDup (Permutation_sym Pdel)).
      * intros j Hj. apply dict_del_in in Hj. now apply Hci.
      * destruct (close_on_route st r R1) as (r' & C1 & C2 & _). cbn [app] in R2. rewrite Pdel in R2.
        assert (E1 : open_sol rs ++ rs_route (close_route f st) = open_sol (rs ++ [r'])).
        { rewrite open_sol_app. f_equal. rewrite (or_route _ _ C1). unfold open_sol. cbn [flat_map]. now rewrite app_nil_r. }
        assert (Hp' : Permutation (concat (rs ++ [r']) ++ un2) (seq 1 (N - 1))).
        { rewrite concat_app. cbn [concat]. rewrite app_nil_r, <- app_assoc, C2, R2. exact Hp. }
        cbv zeta. rewrite E1. specialize (IH (seeds ++ [s]) (rs ++ [r']) (total + rs_cost (close_route f st)) un2).
        destruct IH as ((rs' & I1 & I2 & I3 & I5) & I4).
        -- assert (X : length (r ++ un2) = length un) by (now rewrite R2). rewrite app_length in X. assert (0 < length r)%nat by (destruct r; [now destruct (or_ne _ _ R1)|cbn; lia]). lia.
        -- apply Forall_app. split; [exact Hg|]. constructor; [|constructor]. split; [apply (or_ne _ _ C1)|apply (or_feas _ _ C1)].
        -- apply Forall2_app; [exact Hs|]. constructor; [|constructor]. apply (Permutation_in _ (Permutation_sym C2)), R3. now left.
        -- rewrite (or_cost _ _ C1), Ht. unfold routes_cost, sumZ. rewrite map_app, fold_right_app. cbn. clear. induction (map (route_cost D) rs); cbn; lia.
        -- exact Hp'.
        -- cbn [p1_sol p1_cost p1_points p1_seeds]. split.
           ++ exists ([r'] ++ rs'). rewrite app_assoc. split; [exact I1|split; [exact I2|split; [exact I3|exact I5]]].
           ++ constructor; [exists rs, []; cbn [fst snd app]; auto|]. constructor.
              { exists rs, [s]. cbn [fst snd]. split; [reflexivity|split; [exact Hg|split; [now rewrite <- Hp, <- Pdel|right; now apply Halone]]]. }
              apply Forall_app. split; [|exact I4]. apply Forall_forall. intros p Hpp. apply in_map_iff in Hpp as (u' & <- & Hu'). cbn [fst snd].
              destruct (R4 u' Hu') as (b & B1 & B2). exists rs, b. split; [reflexivity|split; [exact Hg|split; [|now right]]]. rewrite B1. cbn [app]. now rewrite Pdel.
Qed.
Lemma phase_one_ok m lam order : Permutation order (seq 1 (N - 1)) ->
  let out := phase_one ceps seps D d C L f m lam order in
  (exists rs, p1_sol out = open_sol rs /\ p1_cost out = routes_cost D rs /\ serves N D d C L ceps seps rs /\ Forall2 (fun s r => In s r) (p1_seeds out) rs) /\
  Forall (fun p => halfway (fst p) (snd p)) (p1_points out).
Proof using Hf HfL Halone.
  intros P. exact (p1_loop_ok m lam (length order) [] [] 0 order (le_n _) (Forall_nil _) (Forall2_nil _) eq_refl P).
Qed.
End Cmt.
