(** * Proofs about do_local_search: results, and the operators of the library *)
From Verif Require Import Spec Spec_ls Spec_inter PyBase M_util M_routedata M_intra M_inter M_driver Spec_driver
     P_base P_cvrp P_rd P_scan P_intra P_intra2 P_inter P_inter2 P_inter3 P_driver.
From Coq Require Import ZifyBool ZifyNat Wellfounded.

(** ** Results of the search *)
Lemma sumZ_lower (f : list nat -> Z) (b : Z) rs : 0 <= b -> (forall r, In r rs -> - b <= f r) ->
  - (b * Z.of_nat (length rs)) <= sumZ (map f rs).
Proof.
  intros Hb. induction rs as [|r rs IH]; intros H; [cbn; lia|]. cbn [map length].
  change (sumZ (f r :: map f rs)) with (f r + sumZ (map f rs)).
  specialize (H r (or_introl eq_refl)) as H1. specialize (IH (fun r' Hr => H r' (or_intror Hr))). lia.
Qed.

Lemma cost_bounded D cs R : exists K, forall rs, Permutation (concat rs) cs -> length rs = R -> 0 <= routes_cost D rs + K.
Proof.
  destruct (matrix_bounded D (0%nat :: cs)) as (m & Hm & HB).
  exists (m * (Z.of_nat (length cs) + 2) * Z.of_nat R). intros rs HP HL.
  assert (H : - (m * (Z.of_nat (length cs) + 2) * Z.of_nat (length rs)) <= routes_cost D rs).
  { unfold routes_cost. apply sumZ_lower; [nia|]. intros r Hr. unfold route_cost. fold (wrap r).
    assert (Hin : forall x, In x (wrap r) -> In x (0%nat :: cs)).
    { intros x [<-|Hx]; [now left|]. apply in_app_or in Hx. destruct Hx as [Hx|[<-|[]]]; [right|now left].
      apply (Permutation_in _ HP). apply in_concat. now exists r. }
    assert (HL2 : (length (wrap r) <= length cs + 2)%nat).
    { rewrite wrap_length. rewrite <- (Permutation_length HP).
      enough (length r <= length (concat rs))%nat by lia. clear -Hr.
      induction rs as [|q rs IH]; [easy|]. cbn [concat]. rewrite app_length. destruct Hr as [->|Hr]; [lia|]. specialize (IH Hr). lia. }
    pose proof (path_cost_lower D (wrap r) m (fun a b Ha Hb => HB a b (Hin a Ha) (Hin b Hb)) Hm) as HP'. nia. }
  rewrite HL in H. lia.
Qed.

Lemma concat_nonempty (rs : list (list nat)) : concat (filter nonempty rs) = concat rs.
Proof. induction rs as [|[|x r] rs IH]; cbn [filter nonempty concat app]; [reflexivity|exact IH|]. now rewrite IH. Qed.

Section Results.
Variables (eps : Z) (it : iter_opt) (sem : nat -> ls_op) (first : bool).
Variables (rel : list nat -> routedata -> Prop) (good : list nat -> Prop).
Variable prog : list (list nat) -> list (list nat) -> Prop.
Variable ls_ops : list nat.
Hypothesis Hrel : forall r rd, rel r rd -> rd_route rd = wrap r.
Hypothesis Hops : forall op, In op ls_ops -> op_sound rel good prog (sem op).
Variables (D : matrix) (d : demands) (rs : list (list nat)).
Hypothesis Hdist : distinct_customers rs.
Hypothesis Hinit : Forall2 rel (filter nonempty rs) (from_solution (encode rs) D d).

Lemma init_dist : distinct_customers (filter nonempty rs).
Proof. unfold distinct_customers. rewrite concat_nonempty. exact Hdist. Qed.

Lemma init_inv : inv sem first rel ls_ops (filter nonempty rs)
  (mkst (from_solution (encode rs) D d) (seq 0 (length (from_solution (encode rs) D d))) [] []).
Proof.
  constructor; cbn; try easy.
  - apply seq_NoDup.
  - intros i. rewrite in_seq. rewrite <- (Forall2_len _ _ _ Hinit). unfold nthr. split; [|lia].
    intros [_ Hi]. split; [exact Hi|]. assert (HI : In (nth i (filter nonempty rs) []) (filter nonempty rs)) by (apply nth_In; lia).
    apply filter_In in HI. destruct HI as [_ HI]. intros E. rewrite E in HI. discriminate.
Qed.

Lemma all_memo_optimum rs' st : inv sem first rel ls_ops rs' st -> all_memo sem st ls_ops ->
  local_optimum sem ls_ops first rs' (st_rds st).
Proof.
  intros HI HA op ris Hop Hlen HN Hin Hsort.
  apply (inv_opt _ _ _ _ _ _ HI ris op); [|exact Hop].
  apply HA; [exact Hop| |].
  - apply in_kperms; [exact (inv_nodup _ _ _ _ _ _ HI)|]. split; [exact Hlen|]. split; [exact HN|].
    intros i Hi. apply (inv_idxs _ _ _ _ _ _ HI). now apply Hin.
  - unfold eligible. destruct (op_sensitive (sem op)); [reflexivity|]. cbn. apply sorted_increasing; [exact HN|]. now apply Hsort.
Qed.

Lemma driver_result max fuel out :
  do_local_search eps sem ls_ops (encode rs) D d first it max fuel = Some out ->
  exists rs' rds, out = encode rs' /\ Forall2 rel rs' rds /\ reach good prog (filter nonempty rs) rs' /\
    ((max = None \/ max = Some 0%nat) -> local_optimum sem ls_ops first rs' rds).
Proof.
  unfold do_local_search. intros H.
  destruct (iter_loop eps it sem first ls_ops max fuel 0 _) as [st|] eqn:E in H; [|discriminate]. injection H as <-.
  eapply (iter_loop_spec eps it sem first rel good prog ls_ops Hrel Hops max fuel) in E; [|exact init_dist|exact init_inv].
  destruct E as (rs' & HI & HR & HM). exists rs', (st_rds st). split; [|split; [|split]].
  - apply to_solution_wrap. pose proof (inv_rel _ _ _ _ _ _ HI) as HF. clear -HF Hrel.
    induction HF as [|r rd rs rds Hr HF IH]; [reflexivity|]. cbn [map]. rewrite IH. f_equal. now apply Hrel.
  - exact (inv_rel _ _ _ _ _ _ HI).
  - exact HR.
  - intros Hm. now apply (all_memo_optimum rs' st HI), HM.
Qed.

Lemma driver_terminates max : (forall a b, prog a b -> cheaper_or_fewer D a b) ->
  exists out fuel0, forall fuel, (fuel0 <= fuel)%nat ->
    do_local_search eps sem ls_ops (encode rs) D d first it max fuel = Some out.
Proof.
  intros Hp. destruct (cost_bounded D (concat (filter nonempty rs)) (length (filter nonempty rs))) as (K & HK).
  destruct (iter_loop_total eps it sem first rel good prog ls_ops Hrel Hops D K _ _ Hp init_dist HK max (filter nonempty rs)
     (conj (Permutation_refl _) eq_refl) 0%nat _ init_inv) as (st & fuel0 & H).
  exists (to_solution (st_rds st)), fuel0. intros fuel Hf. unfold do_local_search. now rewrite (H fuel Hf).
Qed.
End Results.

Lemma reach_keep good prog rs rs' : reach good prog rs rs' ->
  length rs' = length rs /\ Permutation (concat rs') (concat rs) /\ (Forall good rs -> Forall good rs').
Proof. intros [->|H]; [repeat split; auto|now apply changes_keep in H]. Qed.

Lemma changes_cheaper good D rs rs' : changes good (cheaper D) rs rs' -> routes_cost D rs' < routes_cost D rs.
Proof.
  induction 1 as [rs ris rs' HN Hlt HL HP HG HPr _|]; [|lia].
  unfold cheaper, routes_cost in *. rewrite upd_sum by assumption. lia.
Qed.
Lemma reach_cheaper good D rs rs' : reach good (cheaper D) rs rs' -> rs' = rs \/ routes_cost D rs' < routes_cost D rs.
Proof. intros [->|H]; [now left|right; now apply (changes_cheaper good)]. Qed.

(** ** Operators on one route *)
Definition sound1 (D : matrix) (f : list nat -> bool -> option (list nat * Z)) : Prop :=
  forall r first w delta, NoDup r -> customers_only r -> f (wrap r) first = Some (w, delta) ->
    same_tour_nodes (wrap r) w /\ delta = path_cost D w - path_cost D (wrap r) /\ delta < 0.

Lemma tour_of_wrap r w : same_tour_nodes (wrap r) w -> exists q, w = wrap q /\ Permutation r q.
Proof.
  intros (HP & Hh & Hl). destruct w as [|x w]; [apply Permutation_length in HP; discriminate|].
  destruct (exists_last (l := w)) as (q & y & ->).
  { intros ->. apply Permutation_length in HP. rewrite wrap_length in HP. cbn in HP. lia. }
  unfold wrap in Hh. cbn [hd] in Hh. subst x. rewrite last_wrap in Hl.
  assert (Hy : last ((0%nat :: q) ++ [y]) 0%nat = y) by apply last_last. cbn [app] in Hy. rewrite Hy in Hl. subst y. exists q. split; [reflexivity|].
  unfold wrap in HP. apply Permutation_cons_inv in HP. now apply Permutation_app_inv_r in HP.
Qed.

Lemma demand_perm d r q : Permutation r q -> demand d r = demand d q.
Proof. intros H. unfold demand. apply sumZ_perm. now apply Permutation_map. Qed.

Lemma routes_cost1 D r : routes_cost D [r] = route_cost D r.
Proof. unfold routes_cost. change (sumZ (map (route_cost D) [r])) with (route_cost D r + 0). lia. Qed.

Lemma sound1_op eps D d C L f : sound1 D f ->
  op_sound (exact_rd D d C) (feasible D d C L eps eps) (cheaper D) (Op1 f) /\
  op_sound only_route (feasible D d C L eps eps) (cheaper D) (Op1 f).
Proof.
  intros Hf.
  assert (G : forall first r rd rds' delta, NoDup r -> customers_only r -> rd_route rd = wrap r -> run_op (Op1 f) [rd] first = Some (rds', delta) ->
     exists q, rds' = [mkrd (wrap q) (rd_cost rd + delta) (rd_demand rd)] /\ Permutation r q /\
       delta = route_cost D q - route_cost D r /\ delta < 0).
  { intros first r rd rds' delta HN HC HR H. cbn in H. rewrite HR in H. destruct (f (wrap r) first) as [[w dl]|] eqn:E; [|discriminate].
    injection H as <- <-. destruct (Hf _ _ _ _ HN HC E) as (H1 & H2 & H3). destruct (tour_of_wrap r w H1) as (q & -> & HP).
    exists q. repeat split; assumption. }
  assert (F : forall r q delta, Permutation r q -> delta = route_cost D q - route_cost D r -> delta < 0 ->
     feasible D d C L eps eps r -> feasible D d C L eps eps q).
  { intros r q delta HP Hd Hn [F1 F2]. split; [now rewrite <- (demand_perm d r q HP)|].
    eapply within_mono; [| |exact F2]; lia. }
  assert (S : forall (rel : list nat -> routedata -> Prop), (forall r rd, rel r rd -> rd_route rd = wrap r) ->
     (forall r q rd delta, rel r rd -> Permutation r q -> delta = route_cost D q - route_cost D r ->
        rel q (mkrd (wrap q) (rd_cost rd + delta) (rd_demand rd))) ->
     op_sound rel (feasible D d C L eps eps) (cheaper D) (Op1 f)).
  { intros rel Hr Hk first rs rds rds' delta HL HD HF H. cbn in HL. destruct rs as [|r [|]]; try discriminate.
    inversion HF as [|? rd ? ? Hrd HF']; subst. inversion HF'; subst.
    destruct HD as [HD1 HD2]. cbn [concat] in HD1, HD2. rewrite app_nil_r in HD1, HD2.
    destruct (G _ _ _ _ _ HD1 HD2 (Hr _ _ Hrd) H) as (q & -> & HP & Hd & Hn). exists [q].
    split; [constructor; [now apply (Hk r)|constructor]|]. split; [reflexivity|].
    split; [cbn; rewrite !app_nil_r; now symmetry|]. split.
    - intros HG. inversion HG as [|? ? Hg _]. constructor; [|constructor]. now apply (F r q delta).
    - unfold cheaper. rewrite !routes_cost1. lia. }
  split; apply S.
  - intros r rd H. apply H.
  - intros r q rd delta (H1 & H2 & H3) HP Hd. split; [reflexivity|]. cbn [rd_cost rd_demand]. split; [lia|].
    intros HC. rewrite H3 by exact HC. f_equal. now apply demand_perm.
  - intros r rd H. exact H.
  - intros r q rd delta H HP Hd. reflexivity.
Qed.

Lemma wrap_simple r : NoDup r -> customers_only r -> simple_tour (wrap r).
Proof.
  intros HN HC. unfold customers_only in HC. rewrite Forall_forall in HC. unfold simple_tour, wrap. cbn [tl].
  assert (H0 : ~ In 0%nat r) by (intros H; exact (HC _ H eq_refl)). split.
  - apply NoDup_app_intro; [exact HN|repeat constructor; easy|]. intros x Hx [<-|[]]. contradiction.
  - change (0%nat :: r ++ [0%nat]) with ((0%nat :: r) ++ [0%nat]). rewrite removelast_last. now constructor.
Qed.

Lemma contract_sound1 (D : matrix) (eps : Z) nbr f : 0 <= eps ->
  (forall r first, simple_tour (wrap r) ->
     finds_improvement (path_cost D) (nbr (wrap r)) (path_cost D (wrap r)) 0 eps (negb first) (f (wrap r) first)) ->
  (forall route r', nbr route r' -> same_tour_nodes route r') -> sound1 D f.
Proof.
  intros He HC HN r first w delta H1 H2 E. specialize (HC r first (wrap_simple r H1 H2)). rewrite E in HC. cbn in HC.
  destruct HC as (A1 & A2 & A3 & _). split; [now apply HN|]. split; [exact A2|]. lia.
Qed.

Lemma sound_2opt eps D : 0 <= eps -> symmetric D -> sound1 D (fun r first => do_2opt_move eps r D first None).
Proof.
  intros He Hs. apply (contract_sound1 D eps two_opt_nbr); [exact He| |exact two_opt_same].
  intros r first _. exact (do_2opt_contract eps (wrap r) D first None He Hs).
Qed.
Lemma sound_3opt eps D : 0 <= eps -> symmetric D -> sound1 D (fun r first => do_3opt_move eps r D first None).
Proof.
  intros He Hs. apply (contract_sound1 D eps three_opt_nbr); [exact He| |exact three_opt_same].
  intros r first _. exact (do_3opt_contract eps (wrap r) D first None He Hs).
Qed.
Lemma sound_relocate eps D : 0 <= eps -> sound1 D (fun r first => do_relocate_move eps r D first None).
Proof.
  intros He. apply (contract_sound1 D eps relocate_nbr); [exact He| |exact relocate_same].
  intros r first Hs. exact (do_relocate_contract eps (wrap r) D first None He Hs).
Qed.
Lemma sound_exchange eps D : 0 <= eps -> sound1 D (fun r first => do_exchange_move eps r D first None).
Proof.
  intros He. apply (contract_sound1 D eps exchange_nbr); [exact He| |exact exchange_same].
  intros r first Hs. exact (do_exchange_contract eps (wrap r) D first None He Hs).
Qed.

(** ** Operators on two and three routes *)
Lemma two_of (rel : list nat -> routedata -> Prop) rs rds : length rs = 2%nat -> Forall2 rel rs rds ->
  exists r1 r2 rd1 rd2, rs = [r1; r2] /\ rds = [rd1; rd2] /\ rel r1 rd1 /\ rel r2 rd2.
Proof.
  intros HL HF. destruct rs as [|r1 [|r2 [|]]]; try discriminate.
  inversion HF as [|? rd1 ? ? H1 HF1]; subst. inversion HF1 as [|? rd2 ? ? H2 HF2]; subst. inversion HF2; subst.
  now exists r1, r2, rd1, rd2.
Qed.
Lemma three_of (rel : list nat -> routedata -> Prop) rs rds : length rs = 3%nat -> Forall2 rel rs rds ->
  exists r1 r2 r3 rd1 rd2 rd3, rs = [r1; r2; r3] /\ rds = [rd1; rd2; rd3] /\ rel r1 rd1 /\ rel r2 rd2 /\ rel r3 rd3.
Proof.
  intros HL HF. destruct rs as [|r1 [|r2 [|r3 [|]]]]; try discriminate.
  inversion HF as [|? rd1 ? ? H1 HF1]; subst. inversion HF1 as [|? rd2 ? ? H2 HF2]; subst.
  inversion HF2 as [|? rd3 ? ? H3 HF3]; subst. inversion HF3; subst.
  now exists r1, r2, r3, rd1, rd2, rd3.
Qed.
Lemma concat2 (a b : list nat) : concat [a; b] = a ++ b.
Proof. cbn. now rewrite app_nil_r. Qed.
Lemma concat3 (a b c : list nat) : concat [a; b; c] = a ++ b ++ c.
Proof. cbn. now rewrite app_nil_r. Qed.

Section Library.
Variables (eps : Z) (D : matrix) (d : demands) (C L : limit).
Hypothesis Heps : 0 <= eps.
Let good := feasible D d C L eps eps.

Lemma sound_1point (HT : triangle D) (Hd : forall n, 0 <= d n) :
  op_sound (exact_rd D d C) good (cheaper D) (op_1point eps D d C L).
Proof.
  intros first rs rds rds' delta HL _ HF H. destruct (two_of _ _ _ HL HF) as (r1 & r2 & rd1 & rd2 & -> & -> & H1 & H2). cbn in H.
  pose proof (do_1point_contract eps rd1 rd2 D d C L first r1 r2 H1 H2 None Heps) as HC. rewrite H in HC.
  apply op_contract_some in HC. destruct HC as (rs' & HN & HR & Hdl & Hlt). change (start_delta None) with 0 in Hlt.
  exists rs'. split; [exact HR|]. pose proof HN as (r1' & r2' & -> & Hm & Hf2). split; [reflexivity|].
  split; [rewrite !concat2; symmetry; now apply one_point_customers|]. split; [|unfold cheaper; lia].
  intros HG. inversion HG as [|? ? G1 _]; subst. now apply (one_point_feasible D d C L eps r1 r2 _ HT Hd G1 HN).
Qed.

Lemma sound_2point : op_sound (exact_rd D d C) good (cheaper D) (op_2point eps D d C L).
Proof.
  intros first rs rds rds' delta HL _ HF H. destruct (two_of _ _ _ HL HF) as (r1 & r2 & rd1 & rd2 & -> & -> & H1 & H2). cbn in H.
  pose proof (do_2point_contract eps rd1 rd2 D d C L first r1 r2 H1 H2 None Heps) as HC. rewrite H in HC.
  apply op_contract_some in HC. destruct HC as (rs' & HN & HR & Hdl & Hlt). change (start_delta None) with 0 in Hlt.
  exists rs'. split; [exact HR|]. pose proof HN as (r1' & r2' & -> & Hm & Hf2). split; [reflexivity|].
  split; [rewrite !concat2; symmetry; now apply two_point_customers|]. split; [|unfold cheaper; lia].
  intros HG. now apply (two_point_feasible D d C L eps r1 r2 _ Heps HN).
Qed.

Lemma sound_chain (HT : triangle D) (Hd : forall n, 0 <= d n) :
  op_sound (exact_rd D d C) good (cheaper D) (op_chain eps D d C L).
Proof.
  intros first rs rds rds' delta HL _ HF H.
  destruct (three_of _ _ _ HL HF) as (r1 & r2 & r3 & rd1 & rd2 & rd3 & -> & -> & H1 & H2 & H3). cbn in H.
  pose proof (do_chain_contract eps rd1 rd2 rd3 D d C L first r1 r2 r3 H1 H2 H3 None Heps) as HC. rewrite H in HC.
  apply op_contract_some in HC. destruct HC as (rs' & HN & HR & Hdl & Hlt). change (start_delta None) with 0 in Hlt.
  exists rs'. split; [exact HR|]. pose proof HN as (r1' & r2' & r3' & -> & Hm & Hf2). split; [reflexivity|].
  split; [rewrite !concat3; symmetry; now apply chain_customers|]. split; [|unfold cheaper; lia].
  intros HG. inversion HG as [|? ? G1 _]; subst. now apply (chain_feasible D d C L eps r1 r2 r3 _ Heps HT Hd G1 HN).
Qed.

Lemma sound_2optstar (Hs : symmetric D) (Hd0 : d 0%nat = 0) :
  op_sound only_route good (cheaper D) (op_2optstar eps D d C L).
Proof.
  intros first rs rds rds' delta HL _ HF H. destruct (two_of _ _ _ HL HF) as (r1 & r2 & rd1 & rd2 & -> & -> & H1 & H2). cbn in H.
  pose proof (do_2optstar_contract eps rd1 rd2 D d C L first r1 r2 H1 H2 Hs Hd0 None Heps) as HC. rewrite H in HC.
  apply op_contract_some in HC. destruct HC as (rs' & HN & HR & Hdl & Hlt). change (start_delta None) with 0 in Hlt.
  exists rs'. split.
  { unfold routes_of in HR. clear -HR. revert rs' HR. induction rds' as [|rd rds IH]; intros [|r rs'] HR; try discriminate; [constructor|].
    cbn in HR. injection HR as E1 E2. constructor; [exact E1|auto]. }
  pose proof HN as (r1' & r2' & -> & Hm & Hf2). split; [reflexivity|].
  split; [rewrite !concat2; symmetry; now apply star_customers|]. split; [|unfold cheaper; lia].
  intros HG. now apply (star_feasible D d C L eps r1 r2).
Qed.

Hypothesis HD0 : D 0%nat 0%nat = 0.
Lemma empty_exact : exact_rd D d C [] empty_rd.
Proof. split; [reflexivity|]. split; [unfold route_cost; cbn; lia|reflexivity]. Qed.

Hypotheses (HT : triangle D) (Hd : forall n, 0 <= d n).
Lemma empty_good r : good r -> good [].
Proof.
  induction r as [|b r IH]; intros H; [exact H|]. apply IH. exact (remove_feasible D d C L eps eps [] b r HT (Hd b) H).
Qed.
Lemma interleaved_nil_eq (r q : list nat) : interleaved r [] q -> q = r.
Proof.
  intros H. remember [] as e eqn:E. induction H as [|x a b l H IH|x a b l H IH]; [reflexivity| |discriminate].
  f_equal. now apply IH.
Qed.

Lemma sound_insert : op_sound (exact_rd D d C) good (cheaper_or_fewer D) (op_insert eps D d C L).
Proof.
  intros first rs rds rds' delta HL _ HF H. destruct (two_of _ _ _ HL HF) as (r1 & r2 & rd1 & rd2 & -> & -> & H1 & H2). cbn in H.
  destruct (insert_route_result eps rd1 rd2 D d C L first None r1 r2 rds' delta H1 H2 H)
    as (q & rd' & ur' & -> & HE & HP & HI & _ & HC & HLn & _).
  exists [[]; q]. split; [constructor; [exact empty_exact|constructor; [exact HE|constructor]]|]. split; [reflexivity|].
  split; [|split; [|right; now left]].
  - rewrite !concat2. cbn [app]. rewrite (interleaved_perm _ _ _ HI), HP. apply Permutation_app_comm.
  - intros HG. inversion HG as [|? ? G1 HG']; subst. inversion HG' as [|? ? G2 _]; subst.
    constructor; [now apply (empty_good r1)|]. constructor; [|constructor].
    destruct r1 as [|x r1].
    + apply Permutation_nil in HP. subst ur'. apply interleaved_nil_eq in HI. now subst q.
    + split; [exact HC|]. apply HLn. discriminate.
Qed.

Lemma sound_redistribute : op_sound (exact_rd D d C) good (cheaper_or_fewer D) (op_redistribute eps D d C L).
Proof.
  intros first rs rds rds' delta HL _ HF H. destruct (two_of _ _ _ HL HF) as (r1 & r2 & rd1 & rd2 & -> & -> & H1 & H2). cbn in H.
  destruct (redistribute_result eps D d C L first None 0 r1 [r2] rd1 [rd2] rds' delta) as (rds'' & rs' & -> & HE & HLn & HP & _ & HFe & _).
  { now right. }
  { apply H1. }
  { constructor; [exact H2|constructor]. }
  { exact H. }
  exists ([] :: rs'). split; [constructor; [exact empty_exact|exact HE]|]. split; [cbn in *; lia|].
  split; [cbn [concat app]; exact HP|]. split; [|right; now left].
  intros HG. inversion HG as [|? ? G1 HG']; subst. constructor; [now apply (empty_good r1)|]. now apply HFe.
Qed.
End Library.

Lemma weaken_prog rel good (prog prog' : list (list nat) -> list (list nat) -> Prop) o :
  (forall a b, prog a b -> prog' a b) -> op_sound rel good prog o -> op_sound rel good prog' o.
Proof.
  intros Hp HS first rs rds rds' delta HL HD HF H. destruct (HS first rs rds rds' delta HL HD HF H) as (rs' & A1 & A2 & A3 & A4 & A5).
  exists rs'. split; [exact A1|]. split; [exact A2|]. split; [exact A3|]. split; [exact A4|]. now apply Hp.
Qed.

(** ** The searches with the operators of the library *)
Section Searches.
Variables (eps : Z) (D : matrix) (d : demands) (C L : limit).
Hypotheses (Heps : 0 <= eps) (Hsym : symmetric D).

Lemma library_one op : (op <= 3)%nat -> exists f, library eps D d C L op = Op1 f /\ sound1 D f.
Proof.
  intros H. destruct op as [|[|[|[|]]]]; [| | | |lia]; eexists; (split; [reflexivity|]).
  - now apply sound_2opt.
  - now apply sound_3opt.
  - now apply sound_relocate.
  - now apply sound_exchange.
Qed.

Lemma library_moves (HT : triangle D) (Hd : forall n, 0 <= d n) op : (op <= 6)%nat ->
  op_sound (exact_rd D d C) (feasible D d C L eps eps) (cheaper D) (library eps D d C L op).
Proof.
  intros H. destruct (le_lt_dec op 3) as [H3|H3].
  - destruct (library_one op H3) as (f & -> & Hf). now apply sound1_op.
  - destruct op as [|[|[|[|[|[|[|]]]]]]]; try lia.
    + now apply sound_1point.
    + now apply sound_2point.
    + now apply sound_chain.
Qed.

Lemma library_star (Hd0 : d 0%nat = 0) op : (op <= 3)%nat \/ op = 7%nat ->
  op_sound only_route (feasible D d C L eps eps) (cheaper D) (library eps D d C L op).
Proof.
  intros [H| ->].
  - destruct (library_one op H) as (f & -> & Hf). now apply sound1_op.
  - now apply sound_2optstar.
Qed.

Lemma library_merge (HD0 : D 0%nat 0%nat = 0) (HT : triangle D) (Hd : forall n, 0 <= d n) op : op <> 7%nat ->
  op_sound (exact_rd D d C) (feasible D d C L eps eps) (cheaper_or_fewer D) (library eps D d C L op).
Proof.
  intros H. destruct (le_lt_dec op 6) as [H6|H6].
  - apply (weaken_prog _ _ (cheaper D)); [now left|]. now apply library_moves.
  - destruct op as [|[|[|[|[|[|[|[|[|op]]]]]]]]]; try lia.
    + now apply sound_redistribute.
    + now apply sound_insert.
Qed.

Lemma init_exact rs : d 0%nat = 0 -> distinct_customers rs ->
  Forall2 (exact_rd D d C) (filter nonempty rs) (from_solution (encode rs) D d).
Proof.
  intros H0 [_ HC]. rewrite from_solution_spec.
  - induction (filter nonempty rs) as [|r l IH]; [constructor|]. cbn [map]. constructor; [|exact IH]. now repeat split.
  - exact H0.
  - apply Forall_forall. intros r Hr. unfold customers_only in *. rewrite Forall_forall in *. intros x Hx.
    apply HC. apply in_concat. now exists r.
Qed.
Lemma exact_only rs rds : Forall2 (exact_rd D d C) rs rds -> Forall2 only_route rs rds.
Proof. induction 1 as [|r rd rs rds H HF IH]; constructor; [apply H|exact IH]. Qed.

Lemma filter_good (good : list nat -> Prop) rs : Forall good rs -> Forall good (filter nonempty rs).
Proof. rewrite !Forall_forall. intros H r Hr. apply H. now apply filter_In in Hr. Qed.
Lemma filter_cost rs : D 0%nat 0%nat = 0 -> routes_cost D (filter nonempty rs) = routes_cost D rs.
Proof.
  intros H0. induction rs as [|[|x r] rs IH]; [reflexivity| |]; cbn [filter nonempty].
  - rewrite IH. unfold routes_cost. cbn [map]. change (route_cost D []) with (D 0%nat 0%nat + 0). rewrite H0.
    change (sumZ (0 + 0 :: map (route_cost D) rs)) with (0 + 0 + sumZ (map (route_cost D) rs)). lia.
  - unfold routes_cost in *. cbn [map].
    change (route_cost D (x :: r) + sumZ (map (route_cost D) (filter nonempty rs)) = route_cost D (x :: r) + sumZ (map (route_cost D) rs)). lia.
Qed.
End Searches.

(** ** Local optima *)
Lemma Forall2_nth_rel (rel : list nat -> routedata -> Prop) rs rds i : Forall2 rel rs rds -> (i < length rs)%nat ->
  rel (nth i rs []) (nth i rds empty_rd).
Proof.
  intros H. revert i. induction H as [|r rd rs rds Hr HF IH]; intros [|i] Hi; cbn in *; try lia; [exact Hr|]. apply IH. lia.
Qed.

Lemma op_contract_none D rel nbr rs thr eps best rs' :
  op_contract D rel nbr rs thr eps best None -> nbr rs' -> thr <= routes_cost D rs' - routes_cost D rs + eps.
Proof. intros (res' & HF & HR). destruct res' as [[]|]; [easy|]. intros Hn. exact (HF rs' Hn). Qed.

Lemma finds_none1 D (nbr : list nat -> Prop) r eps b r' :
  finds_improvement (path_cost D) nbr (path_cost D (wrap r)) (start_delta None) eps b None -> nbr (wrap r') ->
  routes_cost D [r] <= routes_cost D [r'] + eps.
Proof.
  intros H Hn. specialize (H _ Hn). change (start_delta None) with 0 in H.
  rewrite !routes_cost1. unfold route_cost. fold (wrap r) (wrap r'). lia.
Qed.

Lemma optimum_cannot_improve eps D d C L ls_ops first rs rds op :
  0 <= eps -> symmetric D -> d 0%nat = 0 -> distinct_customers rs ->
  Forall2 (if Nat.leb 4 op && Nat.leb op 6 then exact_rd D d C else only_route) rs rds ->
  local_optimum (library eps D d C L) ls_ops first rs rds -> In op ls_ops ->
  cannot_improve eps D d C L op rs.
Proof.
  intros He Hs Hd0 HD HF HO Hop ris rs' HN Hin Hsort Hnbr.
  assert (Hone : forall i, (i < length rs)%nat -> simple_tour (wrap (nth i rs []))).
  { intros i Hi. assert (HI : In (nth i rs []) rs) by (now apply nth_In). destruct HD as [H1 H2]. apply wrap_simple.
    - destruct (in_split _ _ HI) as (a & b & E). rewrite E in H1. rewrite concat_app in H1. apply NoDup_app_r in H1.
      cbn [concat] in H1. clear -H1. induction (nth i rs []) as [|x l IH]; [constructor|]. inversion H1 as [|? ? Hx Hl]; subst.
      constructor; [|now apply IH]. intros H. apply Hx. apply in_or_app. now left.
    - unfold customers_only in *. rewrite Forall_forall in *. intros x Hx. apply H2. apply in_concat. now exists (nth i rs []). }
  assert (Hrun : length ris = op_count (library eps D d C L op) ->
      (op_sensitive (library eps D d C L op) = false -> increasing ris) ->
      run_op (library eps D d C L op) (map (fun i => nth i rds empty_rd) ris) first = None).
  { intros E1 E2. now apply HO. }
  destruct op as [|[|[|[|[|[|[|[|op]]]]]]]]; cbn [library_nbr] in Hnbr; cbn [Nat.leb andb] in HF.
  9: { destruct (map (fun i => nth i rs []) ris) as [|a [|b [|c]]]; destruct op; contradiction. }
  1-4: (destruct ris as [|i [|j t]]; cbn [map] in Hnbr; try contradiction; destruct Hnbr as (r' & -> & Hn);
    specialize (Hrun eq_refl ltac:(intros _ a b Hab; cbn in Hab; lia)); cbn [map run_op library] in Hrun;
    pose proof (Hin i (or_introl eq_refl)) as [Hi _];
    unfold op_2opt, op_3opt, op_relocate, op_exchange in Hrun; cbn [run_op] in Hrun;
    rewrite (Forall2_nth_rel _ _ _ i HF Hi) in Hrun; cbn [map]).
  - pose proof (do_2opt_contract eps (wrap (nth i rs [])) D first None He Hs) as HC.
    destruct (do_2opt_move eps (wrap (nth i rs [])) D first None) as [[]|]; [discriminate|]. exact (finds_none1 _ _ _ _ _ _ HC Hn).
  - pose proof (do_3opt_contract eps (wrap (nth i rs [])) D first None He Hs) as HC.
    destruct (do_3opt_move eps (wrap (nth i rs [])) D first None) as [[]|]; [discriminate|]. exact (finds_none1 _ _ _ _ _ _ HC Hn).
  - pose proof (do_relocate_contract eps (wrap (nth i rs [])) D first None He (Hone i Hi)) as HC.
    destruct (do_relocate_move eps (wrap (nth i rs [])) D first None) as [[]|]; [discriminate|]. exact (finds_none1 _ _ _ _ _ _ HC Hn).
  - pose proof (do_exchange_contract eps (wrap (nth i rs [])) D first None He (Hone i Hi)) as HC.
    destruct (do_exchange_move eps (wrap (nth i rs [])) D first None) as [[]|]; [discriminate|]. exact (finds_none1 _ _ _ _ _ _ HC Hn).
  - destruct ris as [|i [|j [|k t]]]; cbn [map] in Hnbr; try contradiction.
    specialize (Hrun eq_refl ltac:(discriminate)).
    pose proof (Hin i (or_introl eq_refl)) as [Hi _]. pose proof (Hin j (or_intror (or_introl eq_refl))) as [Hj _].
    pose proof (do_1point_contract eps _ _ D d C L first _ _ (Forall2_nth_rel _ _ _ i HF Hi) (Forall2_nth_rel _ _ _ j HF Hj) None He) as HC.
    cbn [map] in *. cbn in Hrun. rewrite Hrun in HC. pose proof (op_contract_none _ _ _ _ _ _ _ _ HC Hnbr) as HX.
    change (start_delta None) with 0 in HX. lia.
  - destruct ris as [|i [|j [|k t]]]; cbn [map] in Hnbr; try contradiction.
    specialize (Hrun eq_refl ltac:(intros _; now apply Hsort)).
    pose proof (Hin i (or_introl eq_refl)) as [Hi _]. pose proof (Hin j (or_intror (or_introl eq_refl))) as [Hj _].
    pose proof (do_2point_contract eps _ _ D d C L first _ _ (Forall2_nth_rel _ _ _ i HF Hi) (Forall2_nth_rel _ _ _ j HF Hj) None He) as HC.
    cbn [map] in *. cbn in Hrun. rewrite Hrun in HC. pose proof (op_contract_none _ _ _ _ _ _ _ _ HC Hnbr) as HX.
    change (start_delta None) with 0 in HX. lia.
  - destruct ris as [|i [|j [|k [|l t]]]]; cbn [map] in Hnbr; try contradiction.
    specialize (Hrun eq_refl ltac:(discriminate)).
    pose proof (Hin i (or_introl eq_refl)) as [Hi _]. pose proof (Hin j (or_intror (or_introl eq_refl))) as [Hj _].
    pose proof (Hin k (or_intror (or_intror (or_introl eq_refl)))) as [Hk _].
    pose proof (do_chain_contract eps _ _ _ D d C L first _ _ _ (Forall2_nth_rel _ _ _ i HF Hi) (Forall2_nth_rel _ _ _ j HF Hj)
                  (Forall2_nth_rel _ _ _ k HF Hk) None He) as HC.
    cbn [map] in *. cbn in Hrun. rewrite Hrun in HC. pose proof (op_contract_none _ _ _ _ _ _ _ _ HC Hnbr) as HX.
    change (start_delta None) with 0 in HX. lia.
  - destruct ris as [|i [|j [|k t]]]; cbn [map] in Hnbr; try contradiction.
    specialize (Hrun eq_refl ltac:(intros _; now apply Hsort)).
    pose proof (Hin i (or_introl eq_refl)) as [Hi _]. pose proof (Hin j (or_intror (or_introl eq_refl))) as [Hj _].
    pose proof (do_2optstar_contract eps _ _ D d C L first _ _ (Forall2_nth_rel _ _ _ i HF Hi) (Forall2_nth_rel _ _ _ j HF Hj) Hs Hd0 None He) as HC.
    cbn [map] in *. cbn in Hrun. rewrite Hrun in HC. pose proof (op_contract_none _ _ _ _ _ _ _ _ HC Hnbr) as HX.
    change (start_delta None) with 0 in HX. lia.
Qed.

(** ** Moves with wrong stored costs and demands *)
Section Loose.
Variables (eps : Z) (D : matrix) (d : demands) (C L : limit).
Hypothesis Heps : 0 <= eps.
Let xrd r := mkrd (wrap r) (route_cost D r) (Some (demand d r)).
Let always := fun _ : list nat => True.
Lemma xrd_exact r : exact_rd D d C r (xrd r).
Proof. repeat split. Qed.

Lemma loose_1point : op_sound only_route always (cheaper D) (op_1point eps D d C L).
Proof.
  intros first rs rds rds' delta HL _ HF H. destruct (two_of _ _ _ HL HF) as (r1 & r2 & rd1 & rd2 & -> & -> & H1 & H2). cbn in H.
  rewrite do_1point_scan in H by exact Heps.
  pose proof (scan_spec eps first (cands_1pt eps rd1 rd2 D d C L) (start_delta None) Heps) as HS.
  destruct (fst (scan eps first (cands_1pt eps rd1 rd2 D d C L) (None, start_delta None))) as [[m|] bd]; [|discriminate].
  injection H as <- <-. destruct HS as (Hin & Hlt & _). cbn [fst snd] in *. change (start_delta None) with 0 in Hlt.
  apply in_cands_1pt in Hin. destruct Hin as (i & j & Hi & Hj & _ & _ & -> & ->).
  unfold only_route in H1, H2. rewrite H1 in Hi. rewrite H2 in Hj.
  apply pos_customer in Hi. destruct Hi as (l1 & b & l2 & Er1 & ->).
  apply pos_gap in Hj. destruct Hj as (m1 & m2 & Er2 & ->).
  destruct (pieces_1pt (xrd r1) (xrd r2) D d C r1 r2 (xrd_exact r1) (xrd_exact r2) l1 b l2 m1 m2 Er1 Er2) as (Eb & K1 & K2 & X1 & X2).
  unfold rem_delta, ins_delta in *. cbn [xrd rd_route] in *. rewrite H1, H2 in *.
  exists [l1 ++ l2; m1 ++ [b] ++ m2]. split.
  { constructor; [|constructor; [|constructor]]; unfold only_route.
    - etransitivity; [|exact (proj1 X1)]. cbn [mk_1pt nth rd_route]. now rewrite H1.
    - etransitivity; [|exact (proj1 X2)]. cbn [mk_1pt nth rd_route]. now rewrite H1, H2. }
  split; [reflexivity|]. split; [rewrite !concat2; subst r1 r2; symmetry; apply one_point_customers; now exists l1, b, l2, m1, m2|].
  split; [intros _; repeat constructor|]. unfold cheaper. rewrite !routes_cost2. lia.
Qed.

Lemma loose_2point : op_sound only_route always (cheaper D) (op_2point eps D d C L).
Proof.
  intros first rs rds rds' delta HL _ HF H. destruct (two_of _ _ _ HL HF) as (r1 & r2 & rd1 & rd2 & -> & -> & H1 & H2). cbn in H.
  rewrite do_2point_scan in H by exact Heps.
  pose proof (scan_spec eps first (cands_2pt eps rd1 rd2 D d C L) (start_delta None) Heps) as HS.
  destruct (fst (scan eps first (cands_2pt eps rd1 rd2 D d C L) (None, start_delta None))) as [[m|] bd]; [|discriminate].
  injection H as <- <-. destruct HS as (Hin & Hlt & _). cbn [fst snd] in *. change (start_delta None) with 0 in Hlt.
  apply in_cands_2pt in Hin. destruct Hin as (i & j & Hi & Hj & _ & _ & -> & ->).
  unfold only_route in H1, H2. rewrite H1 in Hi. rewrite H2 in Hj.
  apply pos_customer in Hi. destruct Hi as (l1 & b & l2 & Er1 & ->).
  apply pos_customer in Hj. destruct Hj as (m1 & e & m2 & Er2 & ->).
  destruct (pieces_2pt (xrd r1) (xrd r2) D d C r1 r2 (xrd_exact r1) (xrd_exact r2) l1 b l2 m1 e m2 Er1 Er2) as (Eb & Ee & K1 & K2 & X).
  cbn [xrd rd_route] in *. rewrite H1, H2 in *. inversion X as [|? ? ? ? X1 X']; subst. inversion X' as [|? ? ? ? X2 _]; subst.
  exists [l1 ++ [e] ++ l2; m1 ++ [b] ++ m2]. split.
  { constructor; [|constructor; [|constructor]]; unfold only_route.
    - etransitivity; [|exact (proj1 X1)]. cbn [mk_2pt rd_route]. now rewrite H1, H2.
    - etransitivity; [|exact (proj1 X2)]. cbn [mk_2pt rd_route]. now rewrite H1, H2. }
  split; [reflexivity|]. split; [rewrite !concat2; symmetry; apply two_point_customers; now exists l1, b, l2, m1, e, m2|].
  split; [intros _; repeat constructor|]. unfold cheaper. rewrite !routes_cost2. lia.
Qed.

Lemma loose_chain : op_sound only_route always (cheaper D) (op_chain eps D d C L).
Proof.
  intros first rs rds rds' delta HL _ HF H.
  destruct (three_of _ _ _ HL HF) as (r1 & r2 & r3 & rd1 & rd2 & rd3 & -> & -> & H1 & H2 & H3). cbn in H.
  rewrite do_chain_scan in H.
  pose proof (scan_spec eps first (cands_ch rd1 rd2 rd3 D d C L) (start_delta None) Heps) as HS.
  destruct (fst (scan eps first (cands_ch rd1 rd2 rd3 D d C L) (None, start_delta None))) as [[m|] bd]; [|discriminate].
  injection H as <- <-. destruct HS as (Hin & Hlt & _). cbn [fst snd] in *. change (start_delta None) with 0 in Hlt.
  apply in_cands_ch in Hin. destruct Hin as (i & j & k & Hi & Hj & Hk & _ & _ & _ & -> & ->).
  unfold only_route in H1, H2, H3. rewrite H1 in Hi. rewrite H2 in Hj. rewrite H3 in Hk.
  apply pos_customer in Hi. destruct Hi as (l1 & b & l2 & Er1 & ->).
  apply pos_customer in Hj. destruct Hj as (m1 & e & m2 & Er2 & ->).
  apply pos_gap in Hk. destruct Hk as (n1 & n2 & Er3 & ->).
  destruct (pieces_ch (xrd r1) (xrd r2) (xrd r3) D d C r1 r2 r3 (xrd_exact r1) (xrd_exact r2) (xrd_exact r3)
     l1 b l2 m1 e m2 n1 n2 Er1 Er2 Er3) as (Eb & Ee & K1 & K2 & K3 & X).
  unfold c_rem, c_rep, c_ins in *. cbn [xrd rd_route] in *. rewrite H1, H2, H3 in *.
  inversion X as [|? ? ? ? X1 X']; subst. inversion X' as [|? ? ? ? X2 X'']; subst. inversion X'' as [|? ? ? ? X3 _]; subst.
  exists [l1 ++ l2; m1 ++ [b] ++ m2; n1 ++ [e] ++ n2]. split.
  { constructor; [|constructor; [|constructor; [|constructor]]]; unfold only_route.
    - etransitivity; [|exact (proj1 X1)]. cbn [mk_ch rd_route]. now rewrite H1.
    - etransitivity; [|exact (proj1 X2)]. cbn [mk_ch rd_route]. now rewrite H1, H2.
    - etransitivity; [|exact (proj1 X3)]. cbn [mk_ch rd_route]. now rewrite H2, H3. }
  split; [reflexivity|]. split; [rewrite !concat3; symmetry; apply chain_customers; now exists l1, b, l2, m1, e, m2, n1, n2|].
  split; [intros _; repeat constructor|]. unfold cheaper. rewrite !routes_cost3. lia.
Qed.

Lemma loose_library (Hs : symmetric D) (Hd0 : d 0%nat = 0) op : (op <= 7)%nat ->
  op_sound only_route always (cheaper D) (library eps D d C L op).
Proof.
  intros H.
  assert (W : forall good o, op_sound only_route good (cheaper D) o -> op_sound only_route always (cheaper D) o).
  { intros good o HS first rs rds rds' delta HL HD HF HX. destruct (HS first rs rds rds' delta HL HD HF HX) as (rs' & A1 & A2 & A3 & A4 & A5).
    exists rs'. split; [exact A1|]. split; [exact A2|]. split; [exact A3|]. split; [|exact A5].
    intros _. apply Forall_forall. intros x _. exact I. }
  destruct (le_lt_dec op 3) as [H3|H3]; [apply (W (feasible D d C L eps eps)); apply library_star; auto|].
  destruct op as [|[|[|[|[|[|[|[|]]]]]]]]; try lia.
  - exact loose_1point.
  - exact loose_2point.
  - exact loose_chain.
  - apply (W (feasible D d C L eps eps)). now apply sound_2optstar.
Qed.
End Loose.

(** ** Statements *)
Lemma search_any (rel : list nat -> routedata -> Prop) good prog eps sem ls_ops D d first it max fuel rs out :
  (forall r rd, rel r rd -> rd_route rd = wrap r) ->
  (forall op, In op ls_ops -> op_sound rel good prog (sem op)) ->
  distinct_customers rs -> Forall2 rel (filter nonempty rs) (from_solution (encode rs) D d) ->
  do_local_search eps sem ls_ops (encode rs) D d first it max fuel = Some out ->
  exists rs' rds, out = encode rs' /\ Forall2 rel rs' rds /\ length rs' = length (filter nonempty rs) /\
    Permutation (concat rs') (concat rs) /\ (Forall good rs -> Forall good rs') /\
    (unlimited max -> local_optimum sem ls_ops first rs' rds).
Proof.
  intros Hr Ho Hdist Hi H.
  destruct (driver_result eps it sem first rel good prog ls_ops Hr Ho D d rs Hdist Hi max fuel out H) as (rs' & rds & A1 & A2 & A3 & A4).
  apply reach_keep in A3. rewrite concat_nonempty in A3. destruct A3 as (B1 & B2 & B3).
  exists rs', rds. split; [exact A1|]. split; [exact A2|]. split; [exact B1|]. split; [exact B2|]. split; [|exact A4].
  intros HG. apply B3. now apply filter_good.
Qed.

Lemma search_moves eps D d C L ls_ops first it max fuel rs out :
  0 <= eps -> symmetric D -> triangle D -> D 0%nat 0%nat = 0 -> (forall n, 0 <= d n) -> d 0%nat = 0 ->
  (forall op, In op ls_ops -> (op <= 6)%nat) -> distinct_customers rs ->
  do_local_search eps (library eps D d C L) ls_ops (encode rs) D d first it max fuel = Some out ->
  exists rs', out = encode rs' /\ length rs' = length (filter nonempty rs) /\
    Permutation (concat rs') (concat rs) /\
    (Forall (feasible D d C L eps eps) rs -> Forall (feasible D d C L eps eps) rs') /\
    (rs' = filter nonempty rs \/ routes_cost D rs' < routes_cost D rs) /\
    (unlimited max -> forall op, In op ls_ops -> cannot_improve eps D d C L op rs').
Proof.
  intros He Hs HT HD0 Hd Hd0 Hops Hdist H.
  assert (Ho : forall op, In op ls_ops -> op_sound (exact_rd D d C) (feasible D d C L eps eps) (cheaper D) (library eps D d C L op)).
  { intros op Hop. apply library_moves; auto. }
  destruct (driver_result eps it (library eps D d C L) first (exact_rd D d C) (feasible D d C L eps eps) (cheaper D) ls_ops
     (fun r rd X => proj1 X) Ho D d rs Hdist (init_exact D d C rs Hd0 Hdist) max fuel out H) as (rs' & rds & A1 & A2 & A3 & A4).
  exists rs'. pose proof (reach_cheaper _ _ _ _ A3) as A5. rewrite (filter_cost D rs HD0) in A5.
  apply reach_keep in A3. rewrite concat_nonempty in A3. destruct A3 as (B1 & B2 & B3).
  split; [exact A1|]. split; [exact B1|]. split; [exact B2|]. split; [intros HG; apply B3; now apply filter_good|].
  split; [exact A5|]. intros Hm op Hop.
  apply (optimum_cannot_improve eps D d C L ls_ops first rs' rds op He Hs Hd0); [now apply (dist_perm rs)| |now apply A4|exact Hop].
  destruct (Nat.leb 4 op && Nat.leb op 6); [exact A2|now apply (exact_only D d C)].
Qed.

Lemma search_star eps D d C L ls_ops first it max fuel rs out :
  0 <= eps -> symmetric D -> D 0%nat 0%nat = 0 -> d 0%nat = 0 ->
  (forall op, In op ls_ops -> (op <= 3)%nat \/ op = 7%nat) -> distinct_customers rs ->
  do_local_search eps (library eps D d C L) ls_ops (encode rs) D d first it max fuel = Some out ->
  exists rs', out = encode rs' /\ length rs' = length (filter nonempty rs) /\
    Permutation (concat rs') (concat rs) /\
    (Forall (feasible D d C L eps eps) rs -> Forall (feasible D d C L eps eps) rs') /\
    (rs' = filter nonempty rs \/ routes_cost D rs' < routes_cost D rs) /\
    (unlimited max -> forall op, In op ls_ops -> cannot_improve eps D d C L op rs').
Proof.
  intros He Hs HD0 Hd0 Hops Hdist H.
  assert (Ho : forall op, In op ls_ops -> op_sound only_route (feasible D d C L eps eps) (cheaper D) (library eps D d C L op)).
  { intros op Hop. apply library_star; auto. }
  destruct (driver_result eps it (library eps D d C L) first only_route (feasible D d C L eps eps) (cheaper D) ls_ops
     (fun r rd X => X) Ho D d rs Hdist (exact_only D d C _ _ (init_exact D d C rs Hd0 Hdist)) max fuel out H) as (rs' & rds & A1 & A2 & A3 & A4).
  exists rs'. pose proof (reach_cheaper _ _ _ _ A3) as A5. rewrite (filter_cost D rs HD0) in A5.
  apply reach_keep in A3. rewrite concat_nonempty in A3. destruct A3 as (B1 & B2 & B3).
  split; [exact A1|]. split; [exact B1|]. split; [exact B2|]. split; [intros HG; apply B3; now apply filter_good|].
  split; [exact A5|]. intros Hm op Hop.
  apply (optimum_cannot_improve eps D d C L ls_ops first rs' rds op He Hs Hd0); [now apply (dist_perm rs)| |now apply A4|exact Hop].
  destruct (Hops op Hop) as [Ho'| ->]; [|exact A2]. destruct op as [|[|[|[|]]]]; try lia; exact A2.
Qed.

Lemma search_merge eps D d C L ls_ops first it max fuel rs out :
  0 <= eps -> symmetric D -> triangle D -> D 0%nat 0%nat = 0 -> (forall n, 0 <= d n) -> d 0%nat = 0 ->
  ~ In 7%nat ls_ops -> distinct_customers rs ->
  do_local_search eps (library eps D d C L) ls_ops (encode rs) D d first it max fuel = Some out ->
  exists rs', out = encode rs' /\ length rs' = length (filter nonempty rs) /\
    Permutation (concat rs') (concat rs) /\
    (Forall (feasible D d C L eps eps) rs -> Forall (feasible D d C L eps eps) rs') /\
    (unlimited max -> forall op, In op ls_ops -> cannot_improve eps D d C L op rs').
Proof.
  intros He Hs HT HD0 Hd Hd0 Hops Hdist H.
  assert (Ho : forall op, In op ls_ops -> op_sound (exact_rd D d C) (feasible D d C L eps eps) (cheaper_or_fewer D) (library eps D d C L op)).
  { intros op Hop. apply library_merge; auto. intros ->. contradiction. }
  destruct (search_any (exact_rd D d C) _ _ eps _ ls_ops D d first it max fuel rs out (fun r rd X => proj1 X) Ho Hdist
     (init_exact D d C rs Hd0 Hdist) H) as (rs' & rds & A1 & A2 & A3 & A4 & A5 & A6).
  exists rs'. split; [exact A1|]. split; [exact A3|]. split; [exact A4|]. split; [exact A5|]. intros Hm op Hop.
  apply (optimum_cannot_improve eps D d C L ls_ops first rs' rds op He Hs Hd0); [now apply (dist_perm rs)| |now apply A6|exact Hop].
  destruct (Nat.leb 4 op && Nat.leb op 6); [exact A2|now apply (exact_only D d C)].
Qed.

Lemma search_any_terminates (rel : list nat -> routedata -> Prop) good eps sem ls_ops D d first it max rs :
  (forall r rd, rel r rd -> rd_route rd = wrap r) ->
  (forall op, In op ls_ops -> op_sound rel good (cheaper_or_fewer D) (sem op)) ->
  distinct_customers rs -> Forall2 rel (filter nonempty rs) (from_solution (encode rs) D d) ->
  exists out fuel0, forall fuel, (fuel0 <= fuel)%nat ->
    do_local_search eps sem ls_ops (encode rs) D d first it max fuel = Some out.
Proof.
  intros Hr Ho Hdist Hi.
  exact (driver_terminates eps it sem first rel good _ ls_ops Hr Ho D d rs Hdist Hi max (fun a b H => H)).
Qed.

Lemma search_library_terminates eps D d C L ls_ops first it max rs :
  0 <= eps -> symmetric D -> d 0%nat = 0 -> distinct_customers rs ->
  (~ In 7%nat ls_ops /\ triangle D /\ D 0%nat 0%nat = 0 /\ (forall n, 0 <= d n)) \/
  (forall op, In op ls_ops -> (op <= 3)%nat \/ op = 7%nat) ->
  exists out fuel0, forall fuel, (fuel0 <= fuel)%nat ->
    do_local_search eps (library eps D d C L) ls_ops (encode rs) D d first it max fuel = Some out.
Proof.
  intros He Hs Hd0 Hdist [(H7 & HT & HD0 & Hd)|Hops].
  - apply (search_any_terminates (exact_rd D d C) (feasible D d C L eps eps)); [intros r rd X; apply X| |exact Hdist|now apply init_exact].
    intros op Hop. apply library_merge; auto. intros ->. contradiction.
  - apply (search_any_terminates only_route (feasible D d C L eps eps)); [intros r rd X; exact X| |exact Hdist|].
    + intros op Hop. apply (weaken_prog _ _ (cheaper D)); [now left|]. apply library_star; auto.
    + apply (exact_only D d C). now apply init_exact.
Qed.

Lemma search_mixed eps D d C L ls_ops first it max rs :
  0 <= eps -> symmetric D -> D 0%nat 0%nat = 0 -> d 0%nat = 0 -> (forall op, In op ls_ops -> (op <= 7)%nat) -> distinct_customers rs ->
  exists (rs' : list (list nat)) (fuel0 : nat),
    (forall fuel : nat, (fuel0 <= fuel)%nat ->
       do_local_search eps (library eps D d C L) ls_ops (encode rs) D d first it max fuel = Some (encode rs')) /\ length rs' = length (filter nonempty rs) /\ Permutation (concat rs') (concat rs) /\ (rs' = filter nonempty rs \/ routes_cost D rs' < routes_cost D rs).
Proof.
  intros He Hs HD0 Hd0 Hops Hdist.
  assert (Ho : forall op, In op ls_ops -> op_sound only_route (fun _ => True) (cheaper D) (library eps D d C L op)).
  { intros op Hop. apply loose_library; auto. }
  pose proof (exact_only D d C _ _ (init_exact D d C rs Hd0 Hdist)) as Hi.
  destruct (driver_terminates eps it (library eps D d C L) first only_route (fun _ => True) (cheaper D) ls_ops (fun r rd X => X) Ho D d rs
     Hdist Hi max (fun a b H => or_introl H)) as (out & fuel0 & H).
  destruct (driver_result eps it (library eps D d C L) first only_route (fun _ => True) (cheaper D) ls_ops
     (fun r rd X => X) Ho D d rs Hdist Hi max fuel0 out (H fuel0 (le_n _))) as (rs' & rds & A1 & A2 & A3 & A4).
  subst out. exists rs', fuel0. split; [exact H|].
  pose proof (reach_cheaper _ _ _ _ A3) as A5. rewrite (filter_cost D rs HD0) in A5.
  apply reach_keep in A3. rewrite concat_nonempty in A3. tauto.
Qed.
