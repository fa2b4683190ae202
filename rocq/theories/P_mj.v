(** * Mole-Jameson insertion: the insertion callback with 2-opt *)
From Verif Require Import Spec Spec_ls Spec_inter Spec_savings Spec_cins PyBase M_util M_intra M_psavings M_cins Spec_cins2 P_base P_intra P_intra2 P_driver P_cins P_cins2 P_cins3 P_cins4 P_rfcs3.
From Coq Require Import ZifyBool ZifyNat Lia.

Lemma repeat_shift op : forall fuel r c k, repeat_op op fuel r (c + k) = match repeat_op op fuel r c with Some (r', c') => Some (r', c' + k) | None => None end.
Proof.
  induction fuel as [|fuel IH]; intros r c k; cbn [repeat_op]; [reflexivity|].
  destruct (op r) as [[r' dl]|]; [|reflexivity]. replace (c + k + dl) with (c + dl + k) by lia. apply IH.
Qed.
Lemma two_opt_repeat eps D route : 0 <= eps -> symmetric D -> exists fuel0, forall fuel, (fuel0 <= fuel)%nat -> forall c,
  exists r', repeat_op (fun r => do_2opt_move eps r D false None) fuel route c = Some (r', c + path_cost D r' - path_cost D route) /\ same_tour_nodes route r' /\
     (do_2opt_move eps route D false None = None -> r' = route).
Proof.
  intros He Hs. destruct (repeat_op_spec D (fun r => do_2opt_move eps r D false None) route) as [k0 H].
  - intros r r' dl _ E. pose proof (do_2opt_contract eps r D false None He Hs) as X. rewrite E in X. destruct X as (X1 & X2 & X3 & _). cbn in X3. split; [now apply two_opt_same|]. split; [exact X2|lia].
  - exists (S k0). intros fuel Hf c. destruct (H fuel ltac:(lia)) as (r' & E & S1 & _). exists r'. split; [|split; [exact S1|]].
    + pose proof (repeat_shift (fun r => do_2opt_move eps r D false None) fuel route (path_cost D route) (c - path_cost D route)) as X. rewrite E in X.
      replace (path_cost D route + (c - path_cost D route)) with c in X by lia. rewrite X. f_equal. f_equal. lia.
    + intros E2. destruct fuel as [|fuel]; [lia|]. cbn [repeat_op] in E. rewrite E2 in E. congruence.
Qed.

Lemma two_opt_callback eps seps N D d C L mk : 0 <= eps -> symmetric D ->
  exists fuel0, forall fuel, (fuel0 <= fuel)%nat -> callback_ok seps N D d C L (try_insert_2opt eps seps fuel D L mk).
Proof.
  intros He Hs.
  destruct (uniform (fun fuel w => forall c, exists r', repeat_op (fun r => do_2opt_move eps r D false None) fuel (0%nat :: w ++ [0%nat]) c = Some (r', c + path_cost D r' - path_cost D (0%nat :: w ++ [0%nat])) /\
      same_tour_nodes (0%nat :: w ++ [0%nat]) r' /\ (do_2opt_move eps (0%nat :: w ++ [0%nat]) D false None = None -> r' = 0%nat :: w ++ [0%nat])) (words N N)) as [k0 H0].
  { intros w _. now apply two_opt_repeat. }
  exists k0. intros fuel Hf i rd r R Ei Hedge Hn Hb. unfold try_insert_2opt. set (c := in_cust i) in *. set (a := in_after i) in *. set (b := in_before i) in *.
  destruct (insert_in_ok D d C a c b rd r R Hedge) as (p & Hp & _ & _ & Hi & Hc). rewrite <- Ei in Hi. rewrite Hi.
  assert (Hperm : Permutation (insert_at p c r) (c :: r)) by apply insert_at_perm.
  destruct (H0 fuel Hf (insert_at p c r)) with (c := in_dl i) as (r2 & E & S2 & Heq).
  { apply words_in.
    - rewrite (Permutation_length Hperm). apply nodup_bounded; assumption.
    - intros x Hx. apply (Permutation_in _ Hperm) in Hx. apply Hb in Hx. lia. }
  rewrite E.
  assert (Hne : insert_at p c r <> []). { intro X. rewrite X in Hperm. apply Permutation_length in Hperm. discriminate. }
  apply closed_shape in S2 as (l2 & E2 & P2); [|exact Hne]. subst r2.
  assert (Edl : in_dl i = delta D a c b) by (rewrite Ei; reflexivity). assert (Edd : in_dd i = dd d C c) by (rewrite Ei; reflexivity).
  assert (Ecost : r_cost rd + (in_dl i + path_cost D (0%nat :: l2 ++ [0%nat]) - path_cost D (0%nat :: insert_at p c r ++ [0%nat])) = route_cost D l2).
  { destruct R as (_ & -> & _). unfold route_cost in *. unfold wrap in *. cbn [app] in *. lia. }
  set (td := in_dl i + path_cost D (0%nat :: l2 ++ [0%nat]) - path_cost D (0%nat :: insert_at p c r ++ [0%nat])) in *.
  destruct (negb mk && (0 <? td - D 0%nat c - D c 0%nat)); [now left|].
  destruct (exceeds L seps (r_cost rd + td)) eqn:Ex; [now left|]. right. apply exceeds_within in Ex. rewrite Ecost in Ex.
  assert (P3 : Permutation l2 (c :: r)) by (rewrite P2; exact Hperm).
  destruct (do_2opt_move eps (0%nat :: insert_at p c r ++ [0%nat]) D false None) as [mv|].
  - eexists. eexists. exists l2. split; [reflexivity|]. split; [|split; [exact P3|split; [exact Ex|intros e []]]].
    split; [reflexivity|]. split; [exact Ecost|]. intro Es. cbn [r_cap]. rewrite Edd. apply (cap_insert D d C (fun _ _ _ => (0, 0)) (fun _ => 0) rd r); auto.
  - specialize (Heq eq_refl). injection Heq as Heq. apply app_inv_tail in Heq. subst l2.
    eexists. eexists. exists (insert_at p c r). split; [reflexivity|]. split; [|split; [exact P3|split; [exact Ex|auto]]].
    split; [reflexivity|]. split; [exact Ecost|]. intro Es. cbn [r_cap]. rewrite Edd. apply (cap_insert D d C (fun _ _ _ => (0, 0)) (fun _ => 0) rd r); auto.
Qed.
