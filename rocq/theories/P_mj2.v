(** * Mole-Jameson insertion: the refinement *)
From Verif Require Import Spec Spec_ls Spec_inter Spec_driver Spec_savings PyBase M_util M_routedata M_intra M_inter M_driver M_psavings M_cins M_mj P_base P_util P_rd P_3optstar5 P_rfcs3 P_psavings P_inter P_inter2 P_inter3 P_driver P_driver2 P_driver3.
From Coq Require Import ZifyBool ZifyNat Lia.

(** ** Empty routes *)
Lemma filter_index (rs : list (list nat)) : exists f : nat -> nat, (forall i j, (i < j)%nat -> (f i < f j)%nat) /\
  forall i, (i < length (filter nonempty rs))%nat -> (f i < length rs)%nat /\ nth (f i) rs [] = nth i (filter nonempty rs) [].
Proof.
  induction rs as [|r rs (f & H1 & H2)]; [exists (fun i => i); split; [auto|cbn; lia]|]. destruct r as [|x r]; cbn [filter nonempty].
  - exists (fun i => S (f i)). split; [intros i j H; apply H1 in H; lia|]. intros i Hi. cbn [length nth]. destruct (H2 i Hi). split; [lia|assumption].
  - exists (fun i => match i with O => O | S i => S (f i) end). split; [intros [|i] [|j] H; try lia; assert (X := H1 i j ltac:(lia)); lia|].
    intros [|i] Hi; cbn [length nth] in *; [split; [lia|reflexivity]|]. destruct (H2 i ltac:(lia)). split; [lia|assumption].
Qed.
Lemma cannot_improve_filter eps D d C L op rs : cannot_improve eps D d C L op rs -> cannot_improve eps D d C L op (filter nonempty rs).
Proof.
  intros H ris rs' Hn Hr Ho. destruct (filter_index rs) as (f & F1 & F2).
  assert (E : map (fun i => nth i (filter nonempty rs) []) ris = map (fun i => nth i rs []) (map f ris)).
  { rewrite map_map. apply map_ext_in. intros i Hi. symmetry. apply F2, Hr, Hi. }
  rewrite E. apply H.
  - clear - Hn F1. induction Hn as [|x l Hx _ IH]; cbn; constructor; [|exact IH]. intro Hin. apply in_map_iff in Hin as (y & E & Hy).
    destruct (lt_eq_lt_dec x y) as [[X|X]|X]; [apply F1 in X; lia|congruence|apply F1 in X; lia].
  - intros i Hi. apply in_map_iff in Hi as (j & <- & Hj). destruct (Hr j Hj) as [X1 X2]. destruct (F2 j X1) as [Y1 Y2]. split; [exact Y1|]. now rewrite Y2.
  - intros X. specialize (Ho X). intros i j Hij. rewrite map_length in Hij. rewrite !(nth_indep _ 0%nat (f 0%nat)) by (rewrite map_length; lia). rewrite !map_nth. apply F1, Ho, Hij.
Qed.
Lemma filter_ne rs : Forall (fun r : list nat => r <> []) (filter nonempty rs).
Proof. apply Forall_forall. intros r Hr. apply filter_In in Hr as [_ H]. destruct r; discriminate. Qed.
Lemma filter_id (rs : list (list nat)) : Forall (fun r => r <> []) rs -> filter nonempty rs = rs.
Proof. induction 1 as [|[|x r] rs H _ IH]; [reflexivity|contradiction|]. cbn. now rewrite IH. Qed.
Lemma filter_len (rs : list (list nat)) : (length (filter nonempty rs) <= length rs)%nat.
Proof. induction rs as [|[|x r] rs IH]; cbn; lia. Qed.
Lemma encode_snoc rs r : encode (rs ++ [r]) = encode rs ++ r ++ [0%nat].
Proof. unfold encode. rewrite flat_map_app. cbn. now rewrite app_nil_r. Qed.

Lemma nodup_no_repeats (l : list nat) : NoDup l -> no_repeats l.
Proof. intros H l1 l2 x ->. apply NoDup_remove_2 in H. apply H, in_or_app. right. now left. Qed.
Lemma nodup_concat_each (rs : list (list nat)) r : NoDup (concat rs) -> In r rs -> NoDup r.
Proof.
  intros H Hr. apply in_split in Hr as (a & b & ->). rewrite concat_app in H. cbn [concat] in H.
  apply Permutation_NoDup with (l' := r ++ concat a ++ concat b) in H; [|rewrite !app_assoc; apply Permutation_app_tail, Permutation_app_comm].
  clear - H. induction r as [|x r IH]; [constructor|]. cbn in H. inversion H; subst. constructor; [|auto]. intro X. apply H2, in_or_app. now left.
Qed.
Lemma without_empty rs : distinct_customers rs -> without_empty_routes (encode rs) = encode (filter nonempty rs).
Proof.
  intros [H1 H2]. apply weR_encode.
  - apply Forall_forall. intros r Hr. unfold customers_only in *. rewrite Forall_forall in *. intros x Hx. apply H2, in_concat. now exists r.
  - apply Forall_forall. intros r Hr. eapply nodup_no_repeats, nodup_concat_each; eassumption.
Qed.
Lemma distinct_perm rs rs' : Permutation (concat rs') (concat rs) -> distinct_customers rs -> distinct_customers rs'.
Proof.
  intros P [H1 H2]. split; [eapply Permutation_NoDup; [symmetry; exact P|exact H1]|].
  unfold customers_only in *. rewrite Forall_forall in *. intros x Hx. apply H2. eapply Permutation_in; eassumption.
Qed.
Lemma distinct_filter rs : distinct_customers rs -> distinct_customers (filter nonempty rs).
Proof. apply distinct_perm. now rewrite concat_nonempty. Qed.
Lemma distinct_customers_each rs : distinct_customers rs -> Forall customers_only rs.
Proof. intros [_ H]. apply Forall_forall. intros r Hr. unfold customers_only in *. rewrite Forall_forall in *. intros x Hx. apply H, in_concat. now exists r. Qed.

(** ** The route of least demand *)
Lemma take_min_spec D d C : forall rds r rs rd, exact_rd D d C r rd -> Forall2 (exact_rd D d C) rs rds ->
  let '(m, rest) := take_min rd rds in
  exists r' rs', exact_rd D d C r' m /\ Forall2 (exact_rd D d C) rs' rest /\ Permutation (r' :: rs') (r :: rs) /\ forall x, In x (rd :: rds) -> odem m <= odem x.
Proof.
  induction rds as [|y rds IH]; intros r rs rd Hr HF; inversion HF as [|r1 y' rs1 rds' H1 H3]; subst; cbn [take_min].
  - exists r, []. split; [assumption|]. split; [constructor|]. split; [reflexivity|]. intros x [<-|[]]. lia.
  - specialize (IH r1 rs1 y H1 H3). destruct (take_min y rds) as [m rest]. destruct IH as (r' & rs' & I1 & I2 & I3 & I4).
    destruct (Z.leb_spec (odem rd) (odem m)) as [Hle|Hgt].
    + exists r, (r1 :: rs1). split; [assumption|]. split; [assumption|]. split; [reflexivity|]. intros x [<-|Hx]; [lia|]. specialize (I4 x Hx). lia.
    + exists r', (r :: rs'). split; [assumption|]. split; [now constructor|]. split; [rewrite perm_swap; now constructor|]. intros x [<-|Hx]; [lia|auto].
Qed.

(** ** Inserting customers does not make routes cheaper *)
Lemma inserted_dearer D d C L eps ns rs rs' : triangle D -> all_inserted eps D d C L ns rs rs' -> routes_cost D rs <= routes_cost D rs'.
Proof.
  intros HT. induction 1 as [|n ns rs rs1 rs' (pre & post & m1 & m2 & -> & -> & _) _ IH]; [lia|].
  etransitivity; [|exact IH]. rewrite !routes_cost_app, !routes_cost_cons. pose proof (remove_shorter D m1 n m2 HT). lia.
Qed.
Lemma redistribute_delta eps D d C L first bd0 level r1 rs rd1 rds rds' delta :
  triangle D -> rd_route rd1 = wrap r1 -> Forall2 (exact_rd D d C) rs rds ->
  do_redistribute_move eps rd1 rds D d C L first bd0 level = Some (rds', delta) -> 0 <= delta.
Proof.
  intros HT R1 HF H. pose proof (do_redistribute_spec eps D d C L first bd0 level r1 rs rd1 rds (or_intror HT) R1 HF) as HS. rewrite H in HS.
  destruct rds' as [|e rds']; [easy|]. destruct HS as (_ & (rs0 & ns & rs' & P1 & _ & HA & _ & ->) & _).
  pose proof (inserted_dearer _ _ _ _ _ _ _ _ HT HA). rewrite (routes_cost_perm D _ _ P1). lia.
Qed.

Section Refine.
Variable eps : Z.
Variable D : matrix.
Variable d : demands.
Variables C L : limit.
Hypothesis He : 0 <= eps.
Hypothesis Hs : symmetric D.
Hypothesis HT : triangle D.
Hypothesis HD0 : D 0%nat 0%nat = 0.
Hypothesis Hd : forall n, 0 <= d n.
Hypothesis Hd0 : d 0%nat = 0.

Lemma feasible_nil r : feasible D d C L eps eps r -> feasible D d C L eps eps [].
Proof.
  intros [X1 X2]. split.
  - eapply within_mono; [| |exact X1]; [|lia]. apply demand_nonneg, Hd.
  - eapply within_mono; [| |exact X2]; [|lia]. transitivity 0; [change (route_cost D []) with (D 0%nat 0%nat + 0); lia|]. apply path_nn. intros i j. now apply metric_nonneg.
Qed.

(** The local search of one round *)
Lemma round_search (mk : bool) rs : distinct_customers rs ->
  exists rs' fuel0, (forall fuel, (fuel0 <= fuel)%nat ->
     do_local_search eps (library eps D d C L) [4; 0]%nat (if mk then encode (filter nonempty rs) else encode (filter nonempty rs) ++ [0%nat]) D d false IterAll None fuel = Some (encode rs')) /\
    (length rs' = length (filter nonempty rs))%nat /\ Permutation (concat rs') (concat rs) /\
    (Forall (feasible D d C L eps eps) rs -> Forall (feasible D d C L eps eps) rs') /\
    (rs' = filter nonempty rs \/ routes_cost D rs' < routes_cost D rs) /\
    forall op, In op [4; 0]%nat -> cannot_improve eps D d C L op rs'.
Proof.
  intros Hdist. set (rs0 := if mk then filter nonempty rs else filter nonempty rs ++ [[]]).
  assert (E0 : (if mk then encode (filter nonempty rs) else encode (filter nonempty rs) ++ [0%nat]) = encode rs0) by (unfold rs0; destruct mk; [reflexivity|now rewrite encode_snoc]).
  rewrite E0. assert (F0 : filter nonempty rs0 = filter nonempty rs).
  { unfold rs0. destruct mk; rewrite ?filter_app; cbn [filter nonempty]; rewrite ?app_nil_r; apply filter_id, filter_ne. }
  assert (C0 : concat rs0 = concat rs) by (rewrite <- (concat_nonempty rs0), F0; apply concat_nonempty).
  assert (D0 : distinct_customers rs0) by (eapply distinct_perm; [|exact Hdist]; now rewrite C0).
  destruct (library_optimum eps D d C L [4; 0]%nat false IterAll None rs0 He Hs Hd0 HD0 D0) as (rs' & fuel0 & H & _).
  { left. split; [intros [X|[X|[]]]; discriminate|auto]. }
  destruct (search_moves eps D d C L [4; 0]%nat false IterAll None fuel0 rs0 (encode rs') He Hs HT HD0 Hd Hd0) as (rs2 & E & S1 & S2 & S3 & S4 & S5); [intros op [<-|[<-|[]]]; lia|exact D0|apply H; lia|].
  exists rs2, fuel0. rewrite <- E. split; [exact H|]. split; [now rewrite S1, F0|]. split; [now rewrite S2, C0|]. split; [|split].
  - intros HF. destruct (filter nonempty rs) as [|r0 rest] eqn:Ef.
    + rewrite F0 in S1. destruct rs2; [constructor|discriminate].
    + apply S3. assert (HFf := filter_good _ _ HF). rewrite Ef in HFf. unfold rs0. destruct mk; [exact HFf|]. apply Forall_app. split; [exact HFf|]. constructor; [|constructor].
      apply Forall_inv in HFf. exact (feasible_nil _ HFf).
  - rewrite F0 in S4. rewrite <- (filter_cost D rs HD0), <- F0, (filter_cost D rs0 HD0). now rewrite F0.
  - intros op Hop. apply S5; [now left|exact Hop].
Qed.

(** One call: the least loaded route is redistributed as long as that works (minimize_K). *)
Definition refines (mk : bool) (rs rs' : list (list nat)) : Prop :=
  Forall (fun r => r <> []) rs' /\ Permutation (concat rs') (concat rs) /\
  (Forall (feasible D d C L eps eps) rs -> Forall (feasible D d C L eps eps) rs') /\
  (length rs' <= length (filter nonempty rs))%nat /\
  (mk = false \/ length rs' = length (filter nonempty rs) -> routes_cost D rs' <= routes_cost D rs) /\
  forall op, In op [4; 0]%nat -> cannot_improve eps D d C L op rs'.
Lemma refine_spec (mk : bool) : forall n rs, (length (filter nonempty rs) <= n)%nat -> distinct_customers rs -> concat rs <> [] ->
  exists rs' fuel0, (forall fl fuel, (fuel0 <= fl)%nat -> (fuel0 <= fuel)%nat -> refine_solution eps D d C L mk fl fuel (encode rs) = Some (Refined (encode rs'))) /\ refines mk rs rs'.
Proof.
  induction n as [|n IH]; intros rs Hn Hdist Hne.
  { exfalso. apply Hne. rewrite <- concat_nonempty. destruct (filter nonempty rs); [reflexivity|cbn in Hn; lia]. }
  destruct (round_search mk rs Hdist) as (rs3 & f3 & H3 & A1 & A2 & A3 & A4 & A5).
  assert (D3 : distinct_customers rs3) by (eapply distinct_perm; eassumption).
  set (rs4 := filter nonempty rs3). assert (D4 : distinct_customers rs4) by (now apply distinct_filter).
  assert (HF : Forall2 (exact_rd D d C) rs4 (from_solution (encode rs4) D d)).
  { pose proof (init_exact D d C rs4 Hd0 D4) as X. rewrite filter_id in X by apply filter_ne. exact X. }
  assert (L4 : (length rs4 <= length (filter nonempty rs))%nat) by (rewrite <- A1; apply filter_len).
  assert (C4 : concat rs4 = concat rs3) by apply concat_nonempty.
  assert (R4 : refines mk rs rs4).
  { split; [apply filter_ne|]. split; [now rewrite C4|]. split; [intro X; apply filter_good, A3, X|]. split; [exact L4|]. split.
    - intros _. unfold rs4. rewrite filter_cost by exact HD0. destruct A4 as [->|X]; [rewrite filter_cost by exact HD0; lia|lia].
    - intros op Hop. apply cannot_improve_filter, A5, Hop. }
  assert (Step : forall fl fuel, (f3 <= fl)%nat -> refine_solution eps D d C L mk fl (S fuel) (encode rs) =
     match from_solution (encode rs4) D d with
     | [] => Some Raised
     | rd :: rds =>
         let '(min_rd, rest) := take_min rd rds in
         match do_redistribute_move eps min_rd (if mk then rest else rest ++ [empty_rd]) D d C L true None 0 with
         | Some (rds', delta) => if mk || (delta <? 0) then refine_solution eps D d C L mk fl fuel (to_solution rds') else Some (Refined (encode rs4))
         | None => Some (Refined (encode rs4))
         end
     end).
  { intros fl fuel Hfl. cbn [refine_solution]. rewrite (without_empty rs Hdist), (H3 fl Hfl), (without_empty rs3 D3). reflexivity. }
  destruct (from_solution (encode rs4) D d) as [|rd rds].
  { exfalso. inversion HF as [E|]. apply Hne. assert (X : concat rs4 = []) by now rewrite <- E. rewrite C4 in X. rewrite X in A2. apply Permutation_nil in A2. exact A2. }
  inversion HF as [|r0 rd' rs40 rds' Hr0 HF0 E4]; subst rd' rds'.
  pose proof (take_min_spec D d C rds r0 rs40 rd Hr0 HF0) as T. destruct (take_min rd rds) as [m rest]. destruct T as (r1 & rsr & T1 & T2 & T3 & _).
  set (routes := if mk then rest else rest ++ [empty_rd]) in *.
  set (rsR := if mk then rsr else rsr ++ [[]]).
  assert (T4 : Forall2 (exact_rd D d C) rsR routes).
  { unfold rsR, routes. destruct mk; [exact T2|]. apply Forall2_app; [exact T2|]. constructor; [|constructor]. split; [reflexivity|]. split; [unfold route_cost; cbn; lia|reflexivity]. }
  destruct (do_redistribute_move eps m routes D d C L true None 0) as [[rds' delta]|] eqn:Er.
  - pose proof (redistribute_delta eps D d C L true None 0 r1 rsR m routes rds' delta HT (proj1 T1) T4 Er) as Hdl.
    destruct mk.
    + cbn [orb] in Step. destruct (redistribute_result eps D d C L true None 0 r1 rsR m routes rds' delta (or_intror HT) (proj1 T1) T4 Er) as (rds2 & rs5 & -> & B1 & B2 & B3 & _ & B5 & _).
      assert (E5 : to_solution (empty_rd :: rds2) = encode ([] :: rs5)).
      { apply to_solution_wrap. cbn [map]. f_equal. clear - B1. induction B1 as [|x y l l' Hxy _ IHf]; cbn; [reflexivity|]. now rewrite (proj1 Hxy), IHf. }
      rewrite E5 in Step. unfold rsR in *.
      assert (P5 : Permutation (concat ([] :: rs5)) (concat rs)).
      { cbn [concat app]. rewrite B3, <- A2, <- C4, <- E4. change (r1 ++ concat rsr) with (concat (r1 :: rsr)). now apply concat_perm. }
      assert (L5 : (length (filter nonempty ([] :: rs5)) < length rs4)%nat).
      { cbn [filter nonempty]. pose proof (filter_len rs5). rewrite B2 in H. apply Permutation_length in T3. rewrite <- E4. cbn [length] in *. lia. }
      destruct (IH ([] :: rs5)) as (rs' & f0 & H0 & G1 & G2 & G3 & G4 & G5 & G6); [lia|eapply distinct_perm; eassumption|intro X; rewrite X in P5; apply Permutation_nil in P5; contradiction|].
      exists rs', (S (max f3 f0)). split.
      * intros fl [|fuel] Hfl Hfuel; [lia|]. rewrite Step by lia. apply H0; lia.
      * split; [exact G1|]. split; [now rewrite G2|]. split; [|split; [lia|split; [lia|exact G6]]].
        intro X. apply G3. constructor.
        -- apply A3, (filter_good _ rs3) in X. fold rs4 in X. rewrite <- E4 in X. apply Forall_inv in X. apply (feasible_nil _ X).
        -- apply B5. apply A3, (filter_good _ rs3) in X. fold rs4 in X. rewrite <- E4 in X. rewrite <- T3 in X. now apply Forall_inv_tail in X.
    + exists rs4, (S f3). split; [|exact R4]. intros fl [|fuel] Hfl Hfuel; [lia|]. rewrite Step by lia. cbn [orb]. destruct (Z.ltb_spec delta 0); [lia|reflexivity].
  - exists rs4, (S f3). split; [|exact R4]. intros fl [|fuel] Hfl Hfuel; [lia|]. rewrite Step by lia. reflexivity.
Qed.
Lemma refine_any (mk : bool) rs : distinct_customers rs -> concat rs <> [] ->
  exists rs' fuel0, (forall fl fuel, (fuel0 <= fl)%nat -> (fuel0 <= fuel)%nat -> refine_solution eps D d C L mk fl fuel (encode rs) = Some (Refined (encode rs'))) /\ refines mk rs rs'.
Proof. apply (refine_spec mk _ rs (le_n _)). Qed.
End Refine.
