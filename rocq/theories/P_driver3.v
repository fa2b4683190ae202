(** * Post-optimization on a matrix without service times (VeRyPy.py:208-213) *)
From Verif Require Import Spec Spec_ls Spec_inter PyBase M_util M_cvrp_ops M_routedata M_intra M_inter M_driver Spec_driver
     P_base P_cvrp P_intra P_intra2 P_inter P_inter2 P_inter3 P_driver P_driver2.

Lemma sound1_good D (good : list nat -> Prop) f : sound1 D f ->
  (forall r q, Permutation r q -> route_cost D q < route_cost D r -> good r -> good q) ->
  op_sound only_route good (cheaper D) (Op1 f).
Proof.
  intros Hf Hg first rs rds rds' delta HL HD HF H. cbn in HL. destruct rs as [|r [|]]; try discriminate.
  inversion HF as [|? rd ? ? Hrd HF']; subst. inversion HF'; subst.
  destruct HD as [HD1 HD2]. cbn [concat] in HD1, HD2. rewrite app_nil_r in HD1, HD2.
  cbn in H. rewrite Hrd in H. destruct (f (wrap r) first) as [[w dl]|] eqn:E; [|discriminate].
  injection H as <- <-. destruct (Hf _ _ _ _ HD1 HD2 E) as (H1 & H2 & H3). destruct (tour_of_wrap r w H1) as (q & -> & HP).
  change (path_cost D (wrap q)) with (route_cost D q) in H2. change (path_cost D (wrap r)) with (route_cost D r) in H2.
  exists [q]. split; [constructor; [reflexivity|constructor]|]. split; [reflexivity|].
  split; [cbn; rewrite !app_nil_r; now symmetry|]. split.
  - intros HG. inversion HG as [|? ? Hg' _]. constructor; [|constructor]. apply (Hg r); [exact HP|lia|exact Hg'].
  - unfold cheaper. rewrite !routes_cost1. lia.
Qed.

Lemma post_optimize u idt D st Dc d C L ls_ops first it max fuel rs out eps lim cap :
  0 <= eps -> symmetric D -> D 0%nat 0%nat = 0 -> d 0%nat = 0 -> (forall op, In op ls_ops -> (op <= 3)%nat) ->
  distinct_customers rs -> D2D_c u idt D st = Some Dc ->
  do_local_search eps (library eps D d C L) ls_ops (encode rs) D d first it max fuel = Some out ->
  exists rs', out = encode rs' /\ length rs' = length (filter nonempty rs) /\ Permutation (concat rs') (concat rs) /\
    (rs' = filter nonempty rs \/ routes_cost D rs' < routes_cost D rs) /\
    ((forall r, In r rs -> route_cost Dc r <= lim) -> forall r, In r rs' -> route_cost Dc r <= lim) /\
    ((forall r, In r rs -> demand d r <= cap) -> forall r, In r rs' -> demand d r <= cap).
Proof.
  intros He Hs HD0 Hd0 Hops Hdist HDc H.
  set (nd := fun r : list nat => NoDup r /\ customers_only r).
  assert (Hnd : forall r q, Permutation r q -> nd r -> nd q).
  { intros r q HP [H1 H2]. split; [now apply (Permutation_NoDup HP)|]. unfold customers_only in *. now rewrite <- HP. }
  assert (Hnd0 : Forall nd rs).
  { apply Forall_forall. intros r Hr. destruct Hdist as [H1 H2]. split.
    - apply in_split in Hr. destruct Hr as (a & b & ->). rewrite concat_app in H1. cbn [concat] in H1.
      apply NoDup_app_r in H1. apply (Permutation_NoDup (Permutation_app_comm _ _)) in H1. now apply NoDup_app_r in H1.
    - apply Forall_forall. intros x Hx. unfold customers_only in H2. rewrite Forall_forall in H2. apply H2. apply in_concat. now exists r. }
  set (g1 := fun r => nd r /\ route_cost Dc r <= lim). set (g2 := fun r => demand d r <= cap).
  assert (Hg1 : forall r q, Permutation r q -> route_cost D q < route_cost D r -> g1 r -> g1 q).
  { intros r q HP HC [Hn HL]. pose proof (Hnd _ _ HP Hn) as Hq. split; [exact Hq|].
    destruct r as [|x r]; [apply Permutation_nil in HP; subst q; exact HL|].
    destruct q as [|y q]; [symmetry in HP; apply Permutation_nil in HP; discriminate|].
    destruct (D2D_c_cost u idt D st Dc HDc HD0) as (tst & half & HX & _).
    rewrite HX in HL by (easy || apply Hn). rewrite HX by (easy || apply Hq). apply Permutation_length in HP. rewrite <- HP. lia. }
  assert (Hg2 : forall r q, Permutation r q -> route_cost D q < route_cost D r -> g2 r -> g2 q).
  { intros r q HP _ HL. unfold g2 in *. now rewrite <- (demand_perm d r q HP). }
  assert (Ho : forall (good : list nat -> Prop), (forall r q, Permutation r q -> route_cost D q < route_cost D r -> good r -> good q) ->
     forall op, In op ls_ops -> op_sound only_route good (cheaper D) (library eps D d C L op)).
  { intros good Hg op Hop. destruct (library_one eps D d C L He Hs op (Hops op Hop)) as (f & -> & Hf). now apply sound1_good. }
  assert (R : forall (good : list nat -> Prop), (forall r q, Permutation r q -> route_cost D q < route_cost D r -> good r -> good q) ->
     exists rs' rds, out = encode rs' /\ Forall2 only_route rs' rds /\ reach good (cheaper D) (filter nonempty rs) rs').
  { intros good Hg. destruct (driver_result eps it (library eps D d C L) first only_route good (cheaper D) ls_ops
     (fun r rd X => X) (Ho good Hg) D d rs Hdist (exact_only D d C _ _ (init_exact D d C rs Hd0 Hdist)) max fuel out H)
     as (rs' & rds & A1 & A2 & A3 & A4). now exists rs', rds. }
  destruct (R (fun r => (g1 r -> g1 r) /\ (Forall g1 rs -> g1 r) /\ (Forall g2 rs -> g2 r))) as (rs' & rds & A1 & A2 & A3).
  { intros r q HP HC (_ & G1 & G2). split; [easy|]. split; intros X; [apply (Hg1 r q HP HC)|apply (Hg2 r q HP HC)]; auto. }
  exists rs'. pose proof (reach_cheaper _ _ _ _ A3) as A5. rewrite (filter_cost D rs HD0) in A5.
  apply reach_keep in A3. rewrite concat_nonempty in A3. destruct A3 as (B1 & B2 & B3).
  split; [exact A1|]. split; [exact B1|]. split; [exact B2|]. split; [exact A5|].
  assert (B4 : Forall (fun r => (g1 r -> g1 r) /\ (Forall g1 rs -> g1 r) /\ (Forall g2 rs -> g2 r)) rs').
  { apply B3. apply filter_good. apply Forall_forall. intros r Hr. split; [easy|]. rewrite !Forall_forall. auto. }
  rewrite Forall_forall in B4. split; intros HL r Hr; destruct (B4 r Hr) as (_ & X1 & X2).
  - apply X1. apply Forall_forall. intros x Hx. split; [|now apply HL]. rewrite Forall_forall in Hnd0. now apply Hnd0.
  - apply X2. apply Forall_forall. exact HL.
Qed.

(** ** Termination in a local optimum *)
Lemma search_optimum (rel : list nat -> routedata -> Prop) good eps sem ls_ops D d first it max rs :
  (forall r rd, rel r rd -> rd_route rd = wrap r) ->
  (forall op, In op ls_ops -> op_sound rel good (cheaper_or_fewer D) (sem op)) ->
  distinct_customers rs -> Forall2 rel (filter nonempty rs) (from_solution (encode rs) D d) ->
  exists (rs' : list (list nat)) (rds : list routedata) (fuel0 : nat),
    (forall fuel : nat, (fuel0 <= fuel)%nat -> do_local_search eps sem ls_ops (encode rs) D d first it max fuel = Some (encode rs')) /\
    Forall2 rel rs' rds /\ (unlimited max -> local_optimum sem ls_ops first rs' rds).
Proof.
  intros Hr Ho Hdist Hi.
  destruct (search_any_terminates rel good eps sem ls_ops D d first it max rs Hr Ho Hdist Hi) as (out & fuel0 & H).
  destruct (search_any rel good _ eps sem ls_ops D d first it max fuel0 rs out Hr Ho Hdist Hi (H fuel0 (le_n _)))
    as (rs' & rds & -> & A2 & A3 & A4 & A5 & A6).
  exists rs', rds, fuel0. auto.
Qed.

Lemma library_optimum eps D d C L ls_ops first it max rs :
  0 <= eps -> symmetric D -> d 0%nat = 0 -> D 0%nat 0%nat = 0 -> distinct_customers rs ->
  (~ In 7%nat ls_ops /\ triangle D /\ (forall n, 0 <= d n)) \/
  (forall op, In op ls_ops -> (op <= 3)%nat \/ op = 7%nat) ->
  exists (rs' : list (list nat)) (fuel0 : nat),
    (forall fuel : nat, (fuel0 <= fuel)%nat ->
       do_local_search eps (library eps D d C L) ls_ops (encode rs) D d first it max fuel = Some (encode rs')) /\
    (unlimited max -> forall op, In op ls_ops -> cannot_improve eps D d C L op rs').
Proof.
  intros He Hs Hd0 HD0 Hdist Hc.
  assert (Hc' : (~ In 7%nat ls_ops /\ triangle D /\ D 0%nat 0%nat = 0 /\ (forall n, 0 <= d n)) \/
                (forall op, In op ls_ops -> (op <= 3)%nat \/ op = 7%nat)) by tauto.
  destruct (search_library_terminates eps D d C L ls_ops first it max rs He Hs Hd0 Hdist Hc') as (out & fuel0 & H).
  destruct Hc as [(H7 & HT & Hd)|Hops].
  - destruct (search_merge eps D d C L ls_ops first it max fuel0 rs out He Hs HT HD0 Hd Hd0 H7 Hdist (H fuel0 (le_n _)))
      as (rs' & -> & _ & _ & _ & A). now exists rs', fuel0.
  - destruct (search_star eps D d C L ls_ops first it max fuel0 rs out He Hs HD0 Hd0 Hops Hdist (H fuel0 (le_n _)))
      as (rs' & -> & _ & _ & _ & _ & A). now exists rs', fuel0.
Qed.
