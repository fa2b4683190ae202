(** * Proofs about the automatic choice of the number of emerging routes *)
From Coq Require Import ZifyBool ZifyNat Lia.
From Verif Require Import Spec Spec_inter Spec_savings Spec_nn PyBase M_util M_psavings M_nn M_pnn Spec_pnn
  P_base P_util P_core P_savfam P_mj2 P_nn3.

Section pnn.
Variables (ceps seps : Z) (N : nat) (D : matrix) (d : demands) (C L : limit).
Hypothesis HN : (2 <= N)%nat.
Hypothesis Hself : self_first N D.
Hypothesis Halone : served_alone N D d C L ceps seps.

Local Notation blds := (builds N D d C L ceps seps).
Local Notation srv := (serves N D d C L ceps seps).

Lemma some_build k : (1 <= k)%nat -> exists rs, blds k rs /\ srv rs.
Proof.
  intros Hk. destruct (nn_serves ceps seps N D d C L k NNfarthest false Hself Halone HN Hk ltac:(discriminate)) as (rs & pts & f & H & E).
  exists rs. split; [|exact H]. now exists pts, f.
Qed.

Lemma srv_weR rs : srv rs -> without_empty_routes (encode rs) = encode rs.
Proof.
  intros (H1 & H2 & _). rewrite without_empty, filter_id; [reflexivity|exact H2|].
  unfold covers in H1. split; [apply (Permutation_NoDup (Permutation_sym H1)), seq_NoDup|].
  apply Forall_forall. intros x Hx. apply (Permutation_in _ H1) in Hx. apply in_seq in Hx. lia.
Qed.
Lemma srv_count rs : srv rs -> routes_in (encode rs) = length rs.
Proof.
  intros (H1 & _). unfold routes_in. rewrite (P_savfam.count_encode rs (P_savfam.covers_only N rs H1)). lia.
Qed.
Lemma enc_cost rs : objf (encode rs) D = routes_cost D rs.
Proof. now rewrite objf_path, path_cost_encode. Qed.

Lemma build_call k rs stop : blds k rs -> stop = None ->
  comes_to (nn_call ceps seps N D d C L k stop) (WReturns (Some (encode rs))).
Proof. intros (pts & f & E) ->. exists f. intros fuel Hf. unfold nn_call. now rewrite (E fuel Hf). Qed.

Lemma tries_ok stops n : forall a b0 bs, (1 <= a)%nat -> (b0 < a)%nat -> srv bs ->
  (forall k, (a <= k < a + n)%nat -> stops k = None) ->
  exists b rs,
    comes_to (fun fuel => pnn_tries ceps seps N D d C L stops false fuel (seq a n) (encode bs) (routes_cost D bs) (length bs)) (WReturns (Some (encode rs))) /\
    srv rs /\ routes_cost D rs <= routes_cost D bs /\
    ((b = b0 /\ rs = bs) \/ ((a <= b < a + n)%nat /\ blds b rs /\ routes_cost D rs < routes_cost D bs)) /\
    forall k, (a <= k < a + n)%nat -> exists q, blds k q /\ srv q /\ routes_cost D rs <= routes_cost D q /\ ((k < b)%nat -> routes_cost D rs < routes_cost D q).
Proof.
  induction n as [|n IH]; intros a b0 bs Ha Hb Hs Hst.
  - exists b0, bs. split; [exists 0%nat; intros; reflexivity|]. split; [exact Hs|]. split; [lia|]. split; [now left|]. intros; lia.
  - destruct (some_build a Ha) as (q & Bq & Sq).
    destruct (build_call a q _ Bq (Hst a ltac:(lia))) as (f1 & E1).
    destruct (routes_cost D q <? routes_cost D bs) eqn:Hlt.
    + destruct (IH (S a) a q ltac:(lia) ltac:(lia) Sq) as (b & rs & (f2 & E2) & H2 & H3 & H4 & H5); [intros; apply Hst; lia|].
      exists b, rs. split; [|split; [exact H2|split; [lia|split]]].
      * exists (f1 + f2)%nat. intros fuel Hf. cbn [seq pnn_tries]. rewrite (E1 fuel ltac:(lia)).
        rewrite (srv_weR q Sq), enc_cost, (srv_count q Sq). cbn [is_better_sol]. rewrite Hlt. apply E2. lia.
      * right. destruct H4 as [(-> & ->)|(X & Y & Z)]; [|split; [lia|split; [exact Y|lia]]]. split; [lia|]. split; [exact Bq|lia].
      * intros k Hk. destruct (Nat.eq_dec k a) as [->|Hne]; [|apply H5; lia].
        exists q. split; [exact Bq|]. split; [exact Sq|]. split; [lia|]. intros Hkb. destruct H4 as [(-> & ->)|(X & Y & Z)]; lia.
    + destruct (IH (S a) b0 bs ltac:(lia) ltac:(lia) Hs) as (b & rs & (f2 & E2) & H2 & H3 & H4 & H5); [intros; apply Hst; lia|].
      exists b, rs. split; [|split; [exact H2|split; [lia|split]]].
      * exists (f1 + f2)%nat. intros fuel Hf. cbn [seq pnn_tries]. rewrite (E1 fuel ltac:(lia)).
        rewrite (srv_weR q Sq), enc_cost, (srv_count q Sq). cbn [is_better_sol]. rewrite Hlt. apply E2. lia.
      * destruct H4 as [H4|(X & Y & Z)]; [now left|]. right. split; [lia|]. now split.
      * intros k Hk. destruct (Nat.eq_dec k a) as [->|Hne]; [|apply H5; lia].
        exists q. split; [exact Bq|]. split; [exact Sq|]. split; [lia|]. intros Hkb. destruct H4 as [(-> & ->)|(X & Y & Z)]; lia.
Qed.

Lemma pnn_best : exists rs1, blds 1 rs1 /\ srv rs1 /\
  exists b rs, (1 <= b <= length rs1)%nat /\ blds b rs /\ srv rs /\
    comes_to (pnn_call ceps seps N D d C L (fun _ => None) false false) (WReturns (Some (encode rs))) /\
    forall k, (1 <= k <= length rs1)%nat -> exists q, blds k q /\ srv q /\
      routes_cost D rs <= routes_cost D q /\ ((k < b)%nat -> routes_cost D rs < routes_cost D q).
Proof.
  destruct (some_build 1 ltac:(lia)) as (rs1 & B1 & S1). exists rs1. split; [exact B1|]. split; [exact S1|].
  assert (Hl : (1 <= length rs1)%nat).
  { destruct rs1 as [|r rs]; [|cbn; lia]. destruct S1 as (H & _). unfold covers in H. apply Permutation_length in H. rewrite seq_length in H. cbn in H. lia. }
  destruct (build_call 1 rs1 None B1 eq_refl) as (f1 & E1).
  destruct (tries_ok (fun _ => None) (length rs1 - 1) 2 1 rs1 ltac:(lia) ltac:(lia) S1 ltac:(reflexivity)) as (b & rs & (f2 & E2) & H2 & H3 & H4 & H5).
  exists b, rs. split; [destruct H4 as [(-> & _)|(X & _)]; lia|]. split; [destruct H4 as [(-> & ->)|(_ & X & _)]; assumption|]. split; [exact H2|]. split.
  - exists (f1 + f2)%nat. intros fuel Hf. unfold pnn_call. rewrite (E1 fuel ltac:(lia)). cbv zeta. rewrite (srv_count rs1 S1), enc_cost.
    unfold range. replace (length rs1 + 1 - 2)%nat with (length rs1 - 1)%nat by lia. apply E2. lia.
  - intros k Hk. destruct (Nat.eq_dec k 1) as [->|Hne]; [|apply H5; lia].
    exists rs1. split; [exact B1|]. split; [exact S1|]. split; [exact H3|]. intros Hb. destruct H4 as [(-> & _)|(_ & _ & X)]; lia.
Qed.

Lemma pnn_single mk stops : stops 1%nat = None -> exists rs1, blds 1 rs1 /\ srv rs1 /\
  comes_to (pnn_call ceps seps N D d C L stops true mk) (if mk then WNotImplemented else WReturns (Some (encode rs1))) /\
  comes_to (snn_call ceps seps N D d C L 1 stops mk) (if mk then WNotImplemented else WReturns (Some (encode rs1))).
Proof.
  intros Hst. destruct (some_build 1 ltac:(lia)) as (rs1 & B1 & S1). exists rs1. split; [exact B1|]. split; [exact S1|].
  destruct (build_call 1 rs1 _ B1 Hst) as (f1 & E1). split; exists f1; intros fuel Hf; unfold pnn_call, snn_call; destruct mk; try reflexivity.
  - now rewrite (E1 fuel Hf).
  - now rewrite (E1 fuel Hf).
Qed.

(** The interrupt in run [k]: nothing of the runs before is used. *)
Lemma call_interrupted k i p pts out f :
  (forall fuel, (f <= fuel)%nat -> nearest_neighbor_init ceps seps N D d C L k NNfarthest false [] fuel = Some (out, pts)) ->
  nth_error pts i = Some p -> comes_to (nn_call ceps seps N D d C L k (Some i)) (WInterrupted (nn_interrupted N p)).
Proof. intros E Hp. exists f. intros fuel Hf. unfold nn_call. now rewrite (E fuel Hf), Hp. Qed.

Lemma tries_interrupted stops k w : comes_to (nn_call ceps seps N D d C L k (stops k)) (WInterrupted w) ->
  forall n a bs, (1 <= a)%nat -> (a <= k < a + n)%nat -> srv bs -> (forall t, (a <= t < k)%nat -> stops t = None) ->
  comes_to (fun fuel => pnn_tries ceps seps N D d C L stops false fuel (seq a n) (encode bs) (routes_cost D bs) (length bs)) (WInterrupted w).
Proof.
  intros (f & E). induction n as [|n IH]; intros a bs Ha Hk Hs Hst; [lia|].
  destruct (Nat.eq_dec k a) as [<-|Hne].
  - exists f. intros fuel Hf. cbn [seq pnn_tries]. now rewrite (E fuel Hf).
  - destruct (some_build a Ha) as (q & Bq & Sq).
    destruct (build_call a q _ Bq (Hst a ltac:(lia))) as (f1 & E1).
    destruct (routes_cost D q <? routes_cost D bs) eqn:Hlt.
    + destruct (IH (S a) q ltac:(lia) ltac:(lia) Sq) as (f2 & E2); [intros; apply Hst; lia|].
      exists (f1 + f2)%nat. intros fuel Hf. cbn [seq pnn_tries]. rewrite (E1 fuel ltac:(lia)).
      rewrite (srv_weR q Sq), enc_cost, (srv_count q Sq). cbn [is_better_sol]. rewrite Hlt. apply E2. lia.
    + destruct (IH (S a) bs ltac:(lia) ltac:(lia) Hs) as (f2 & E2); [intros; apply Hst; lia|].
      exists (f1 + f2)%nat. intros fuel Hf. cbn [seq pnn_tries]. rewrite (E1 fuel ltac:(lia)).
      rewrite (srv_weR q Sq), enc_cost, (srv_count q Sq). cbn [is_better_sol]. rewrite Hlt. apply E2. lia.
Qed.

Lemma pnn_interrupted stops single k i : stops k = Some i -> (1 <= k)%nat -> (forall t, (1 <= t < k)%nat -> stops t = None) ->
  (single = true -> k = 1%nat) ->
  exists rs1, blds 1 rs1 /\ ((k <= length rs1)%nat ->
  exists out pts fuel0, (forall fuel, (fuel0 <= fuel)%nat -> nearest_neighbor_init ceps seps N D d C L k NNfarthest false [] fuel = Some (out, pts)) /\
  forall p, nth_error pts i = Some p ->
    comes_to (pnn_call ceps seps N D d C L stops single false) (WInterrupted (nn_interrupted N p)) /\
    (fst p <> N_stored -> exists rs, nn_interrupted N p = encode rs /\ srv rs) /\
    (exists rs, nn_interrupted N p = encode rs /\ (forall c, (1 <= c < N)%nat <-> In c (concat rs)) /\
       Forall (fun r => r <> []) rs /\ Forall (feasible D d C L ceps seps) rs)).
Proof.
  intros Hs Hk Hst Hsg. destruct (some_build 1 ltac:(lia)) as (rs1 & B1 & S1). exists rs1. split; [exact B1|]. intros Hkl.
  destruct (nn_interrupt ceps seps N D d C L k NNfarthest false [] Hself ltac:(lia) Hk) as (out & pts & f & E & HP).
  exists out, pts, f. split; [exact E|]. intros p Hp. destruct (HP p (nth_error_In _ _ Hp)) as (P1 & P2). split; [|split].
  - pose proof (call_interrupted k i p pts out f E Hp) as HC. rewrite <- Hs in HC. destruct (Nat.eq_dec k 1) as [->|Hne].
    + destruct HC as (f0 & E0). exists f0. intros fuel Hf. unfold pnn_call. now rewrite (E0 fuel Hf).
    + destruct single; [specialize (Hsg eq_refl); lia|].
      destruct (build_call 1 rs1 _ B1 (Hst 1%nat ltac:(lia))) as (f1 & E1).
      destruct (tries_interrupted stops k _ HC (length rs1 - 1) 2 rs1 ltac:(lia) ltac:(lia) S1) as (f2 & E2); [intros; apply Hst; lia|].
      exists (f1 + f2)%nat. intros fuel Hf. unfold pnn_call. rewrite (E1 fuel ltac:(lia)). cbv zeta. rewrite (srv_count rs1 S1), enc_cost.
      unfold range. replace (length rs1 + 1 - 2)%nat with (length rs1 - 1)%nat by lia. apply E2. lia.
  - intros Hns. destruct (P1 Hns) as (rs & X1 & X2 & X3 & X4). exists rs. split; [exact X1|]. split; [exact X2|]. split; [exact X3|]. now apply X4.
  - destruct P2 as (rs & X1 & X2 & X3 & X4). exists rs. split; [exact X1|]. split; [exact X2|]. split; [exact X3|]. now apply X4.
Qed.
End pnn.

(** ** More fuel changes nothing *)
Lemma nn_loop_more ceps seps N D d C L m eo n n' : (n <= n')%nat -> forall s r,
  nn_loop ceps seps N D d C L m eo n s = Some r -> nn_loop ceps seps N D d C L m eo n' s = Some r.
Proof.
  revert n'. induction n as [|n IH]; intros n' Hn s r H; [discriminate|]. destruct n' as [|n']; [lia|].
  cbn [nn_loop] in *. destruct (nn_iter ceps seps N D d C L m eo s) as [s' pts|e]; [|exact H].
  destruct (nn_loop ceps seps N D d C L m eo n s') as [[[sf e] pts']|] eqn:E; [|discriminate]. now rewrite (IH n' ltac:(lia) s' _ E).
Qed.
Lemma nn_init_more ceps seps N D d C L K m eo fb n n' r : (n <= n')%nat ->
  nearest_neighbor_init ceps seps N D d C L K m eo fb n = Some r -> nearest_neighbor_init ceps seps N D d C L K m eo fb n' = Some r.
Proof.
  intros Hn. unfold nearest_neighbor_init. destruct (nn_loop ceps seps N D d C L m eo n _) as [x|] eqn:E; [|discriminate].
  now rewrite (nn_loop_more _ _ _ _ _ _ _ _ _ n n' Hn _ _ E).
Qed.
Lemma nn_call_more ceps seps N D d C L k stop n n' w : (n <= n')%nat ->
  nn_call ceps seps N D d C L k stop n = Some w -> nn_call ceps seps N D d C L k stop n' = Some w.
Proof.
  intros Hn. unfold nn_call. destruct (nearest_neighbor_init ceps seps N D d C L k NNfarthest false [] n) as [x|] eqn:E; [|discriminate].
  now rewrite (nn_init_more _ _ _ _ _ _ _ _ _ _ _ n n' _ Hn E).
Qed.
Lemma pnn_tries_more ceps seps N D d C L stops mk n n' w : (n <= n')%nat -> forall ks s f K,
  pnn_tries ceps seps N D d C L stops mk n ks s f K = Some w -> pnn_tries ceps seps N D d C L stops mk n' ks s f K = Some w.
Proof.
  intros Hn. induction ks as [|k ks IH]; intros s f K H; [exact H|]. cbn [pnn_tries] in *.
  destruct (nn_call ceps seps N D d C L k (stops k) n) as [x|] eqn:E; [|discriminate]. rewrite (nn_call_more _ _ _ _ _ _ _ _ _ n n' _ Hn E).
  destruct x as [[sol|]| | | |]; try exact H. cbv zeta in *. destruct (is_better_sol _ _ _ _ _); now apply IH.
Qed.
Lemma pnn_call_more ceps seps N D d C L stops sg mk n n' w : (n <= n')%nat ->
  pnn_call ceps seps N D d C L stops sg mk n = Some w -> pnn_call ceps seps N D d C L stops sg mk n' = Some w.
Proof.
  intros Hn. unfold pnn_call. destruct mk; [easy|].
  destruct (nn_call ceps seps N D d C L 1 (stops 1%nat) n) as [x|] eqn:E; [|discriminate]. rewrite (nn_call_more _ _ _ _ _ _ _ _ _ n n' _ Hn E).
  destruct x as [sol| | | |]; try easy. destruct sg; [easy|]. destruct sol as [sol|]; [|easy]. cbv zeta. now apply pnn_tries_more.
Qed.
Lemma builds_by ceps seps N D d C L k rs n pts :
  nearest_neighbor_init ceps seps N D d C L k NNfarthest false [] n = Some (NNok (Some (encode rs)), pts) -> builds N D d C L ceps seps k rs.
Proof. intros E. exists pts, n. intros fuel Hf. now apply nn_init_more with n. Qed.
Lemma comes_by ceps seps N D d C L stops sg mk n w :
  pnn_call ceps seps N D d C L stops sg mk n = Some w -> comes_to (pnn_call ceps seps N D d C L stops sg mk) w.
Proof. intros E. exists n. intros fuel Hf. now apply pnn_call_more with n. Qed.
