(** * CAWLIP savings and searches with operators on single routes *)
From Verif Require Import Spec Spec_ls Spec_inter Spec_savings PyBase M_util M_cvrp_ops M_routedata M_intra M_inter M_driver Spec_driver
     M_psavings P_base P_cvrp P_intra P_intra2 P_inter P_inter2 P_inter3 P_driver P_driver2 P_driver3 P_psavings2 M_cli.

Lemma nonempty_id (rs : list (list nat)) : Forall (fun r => r <> []) rs -> filter nonempty rs = rs.
Proof. induction 1 as [|r rs Hr _ IH]; [reflexivity|]. cbn. rewrite IH. now destruct r. Qed.

Lemma intra_search eps D d C L ls_ops first it max rs :
  0 <= eps -> symmetric D -> d 0%nat = 0 -> (forall op, In op ls_ops -> (op <= 3)%nat) ->
  distinct_customers rs -> Forall (fun r => r <> []) rs ->
  exists rs' fuel0,
    (forall fuel, (fuel0 <= fuel)%nat ->
       do_local_search eps (library eps D d C L) ls_ops (encode rs) D d first it max fuel = Some (encode rs')) /\
    length rs' = length rs /\ Permutation (concat rs') (concat rs) /\ (rs' = rs \/ routes_cost D rs' < routes_cost D rs) /\
    (forall q, In q rs' -> exists r, In r rs /\ Permutation r q /\ route_cost D q <= route_cost D r) /\
    (unlimited max -> forall op, In op ls_ops -> cannot_improve eps D d C L op rs').
Proof.
  intros He Hs Hd0 Hops Hdist Hne.
  assert (Hops' : forall op, In op ls_ops -> (op <= 3)%nat \/ op = 7%nat) by (intros op H; left; now apply Hops).
  destruct (search_library_terminates eps D d C L ls_ops first it max rs He Hs Hd0 Hdist (or_intror Hops')) as (out & fuel0 & HF).
  set (good := fun q => exists r, In r rs /\ Permutation r q /\ route_cost D q <= route_cost D r).
  assert (Ho : forall op, In op ls_ops -> op_sound only_route good (cheaper D) (library eps D d C L op)).
  { intros op Hop. destruct (library_one eps D d C L He Hs op (Hops op Hop)) as (f & -> & Hf). apply sound1_good; [exact Hf|].
    intros r q HP HC (r0 & H0 & HP0 & HC0). exists r0. split; [exact H0|]. split; [now rewrite HP0|lia]. }
  destruct (driver_result eps it (library eps D d C L) first only_route good (cheaper D) ls_ops (fun r rd X => X) Ho D d rs Hdist
     (exact_only D d C _ _ (init_exact D d C rs Hd0 Hdist)) max fuel0 _ (HF fuel0 (le_n _))) as (rs' & rds & -> & A2 & A3 & A4).
  rewrite (nonempty_id rs Hne) in A3. exists rs', fuel0. split; [exact HF|].
  pose proof (reach_cheaper _ _ _ _ A3) as A5. apply reach_keep in A3. destruct A3 as (B1 & B2 & B3).
  split; [exact B1|]. split; [exact B2|]. split; [exact A5|]. split.
  - intros q Hq. assert (G : Forall good rs').
    { apply B3. apply Forall_forall. intros r Hr. exists r. split; [exact Hr|]. split; [reflexivity|lia]. }
    rewrite Forall_forall in G. now apply G.
  - intros Hm op Hop.
    apply (optimum_cannot_improve eps D d C L ls_ops first rs' rds op He Hs Hd0); [now apply (dist_perm rs)| |now apply A4|exact Hop].
    specialize (Hops op Hop). destruct op as [|[|[|[|]]]]; try lia; exact A2.
Qed.

(** ** CAWLIP *)
Lemma covers_distinct N rs : covers N rs -> distinct_customers rs.
Proof.
  intros HC. split.
  - apply (Permutation_NoDup (Permutation_sym HC)). apply seq_NoDup.
  - apply Forall_forall. intros x Hx. rewrite HC in Hx. apply in_seq in Hx. lia.
Qed.

Lemma cannot_improve_2opt eps D d C L rs r r' : cannot_improve eps D d C L 0 rs -> In r rs -> r <> [] ->
  two_opt_nbr (wrap r) (wrap r') -> route_cost D r <= route_cost D r' + eps.
Proof.
  intros H Hr Hne Hn. apply In_nth with (d := []) in Hr. destruct Hr as (i & Hi & E).
  specialize (H [i] [r']). cbn [map] in H. rewrite E in H. rewrite !routes_cost1 in H. apply H.
  - repeat constructor. easy.
  - intros j [<-|[]]. now rewrite E.
  - discriminate.
  - now exists r'.
Qed.

Lemma cawlip_result ceps seps N D d C L minimize_K :
  (2 <= N)%nat -> 0 <= seps -> symmetric D -> d 0%nat = 0 -> served_alone N D d C L ceps seps ->
  exists rs0 rs fuel0,
    parallel_savings_init ceps seps N D d C L minimize_K (clarke_wright_savings N D) = Some (Some (encode rs0)) /\
    (forall fuel, (fuel0 <= fuel)%nat -> cawlip_savings_init ceps seps N D d C L minimize_K fuel = Some (Some (encode rs))) /\
    covers N rs /\ Forall (fun r => r <> []) rs /\ Forall (feasible D d C L ceps seps) rs /\
    length rs = length rs0 /\ (rs = rs0 \/ routes_cost D rs < routes_cost D rs0) /\
    (forall q, In q rs -> exists r, In r rs0 /\ Permutation r q /\ route_cost D q <= route_cost D r) /\
    (forall r r', In r rs -> two_opt_nbr (wrap r) (wrap r') -> route_cost D r <= route_cost D r' + seps).
Proof.
  intros HN He Hs Hd0 Hal.
  destruct (parallel_result ceps seps N D d C L minimize_K _ HN Hs Hal (clarke_wright_valid N D)) as (rs0 & E & Hc & Hne & Hf & _).
  destruct (intra_search seps D d C L [0%nat] false IterAll None rs0 He Hs Hd0) as (rs & fuel0 & HF & HL & HP & HC & HR & HO).
  { intros op [<-|[]]. lia. }
  { now apply (covers_distinct N). }
  { exact Hne. }
  assert (Hne' : Forall (fun r => r <> []) rs).
  { apply Forall_forall. intros q Hq. destruct (HR q Hq) as (r & Hr & HPr & _). rewrite Forall_forall in Hne. specialize (Hne r Hr).
    intros ->. apply Permutation_sym, Permutation_nil in HPr. easy. }
  exists rs0, rs, fuel0. split; [exact E|]. split.
  { intros fuel Hfu. unfold cawlip_savings_init. rewrite E. now rewrite (HF fuel Hfu). }
  split; [unfold covers; now rewrite HP|]. split; [exact Hne'|]. split.
  { apply Forall_forall. intros q Hq. destruct (HR q Hq) as (r & Hr & HPr & HCr). rewrite Forall_forall in Hf. destruct (Hf r Hr) as [F1 F2].
    split; [rewrite <- (demand_perm d r q HPr); exact F1|]. clear -F2 HCr. unfold within in *. destruct L; [|easy]. intros Hz. specialize (F2 Hz). lia. }
  split; [exact HL|]. split; [exact HC|]. split; [exact HR|].
  intros r r' Hr Hn. apply (cannot_improve_2opt seps D d C L rs r r'); [|exact Hr| |exact Hn].
  - apply HO; [now left|now left].
  - rewrite Forall_forall in Hne'. now apply Hne'.
Qed.
