(** Proofs about the seeds at the ends of thoroughfares. *)
From Coq Require Import ZArith Arith List Bool Permutation ZifyBool ZifyNat Lia.
From Verif Require Import Spec PyBase P_base M_seeds Spec_seeds P_seeds.
Import ListNotations.
Open Scope Z_scope.

Section T.
Variables (N : nat) (D : matrix) (root : Z -> Z) (kind : nat -> clustering).
Hypothesis HN : (0 < N)%nat.

Definition chosen_ok (seeds : list nat) (selected : mask) : Prop :=
  NoDup seeds /\ (forall i, In i seeds -> (i < N)%nat) /\
  (forall i, (i < N)%nat -> selected i = true <-> i = 0%nat \/ In i seeds).

Lemma chosen_ok_add seeds selected i : chosen_ok seeds selected ->
  ~ In i seeds -> (i < N)%nat -> chosen_ok (seeds ++ [i]) (set_mask selected i true).
Proof.
  intros (H1 & H3 & H4) Hi HiN. repeat split.
  - apply (Permutation_NoDup (l := i :: seeds)); [apply Permutation_cons_append|]. constructor; assumption.
  - intros j. rewrite in_app_iff. cbn. intros [Hj|[<-|[]]]; [auto|lia].
  - unfold set_mask. destruct (Nat.eqb_spec i0 i) as [->|Hne].
    + intros _. right. rewrite in_app_iff. cbn. auto.
    + intros Hs. apply H4 in Hs; [|assumption]. rewrite in_app_iff. intuition.
  - intros Hj. unfold set_mask. destruct (Nat.eqb_spec i0 i) as [->|Hne]; [reflexivity|].
    apply H4; [assumption|]. rewrite in_app_iff in Hj. cbn in Hj. intuition congruence.
Qed.

(** [a] seeds are taken from the candidates, the farthest first *)
Lemma take_from (P : nat -> Prop) phase : forall a m seeds selected cand,
  chosen_ok seeds selected ->
  (a <= length (where_ N cand))%nat ->
  (forall i, In i (where_ N cand) <-> P i /\ ~ In i seeds) ->
  exists picks selected' cand',
    thoroughfare_loop N D root kind (a + m) seeds selected cand (where_ N cand) phase
    = thoroughfare_loop N D root kind m (seeds ++ picks) selected' cand' (where_ N cand') phase
    /\ length picks = a
    /\ chosen_ok (seeds ++ picks) selected'
    /\ (forall i, In i (where_ N cand') <-> P i /\ ~ In i (seeds ++ picks))
    /\ (length (where_ N cand') + a = length (where_ N cand))%nat
    /\ most_remote_first D root (fun _ => 1) P seeds picks.
Proof.
  induction a as [|a IH]; intros m seeds selected cand Hok Hn HPc.
  - exists [], selected, cand. rewrite app_nil_r, Nat.add_0_r. repeat split; try tauto; try apply Hok; try apply HPc; auto. constructor.
  - destruct (where_ N cand) as [|c idxs0] eqn:Ei; [cbn in Hn; lia|]. rewrite <- Ei in *.
    cbn [Nat.add thoroughfare_loop].
    replace (match where_ N cand with [] => true | _ => false end) with false by (rewrite Ei; reflexivity).
    set (vals := map _ (where_ N cand)).
    destruct (argmax_spec vals) as (k & w & Ek & Hk & Hw).
    { unfold vals. rewrite Ei. discriminate. }
    rewrite Ek.
    unfold vals in Hk. rewrite nth_error_map in Hk.
    destruct (nth_error (where_ N cand) k) as [i|] eqn:Ei2; [|discriminate].
    cbn [option_map] in Hk.
    match type of Hk with Some ?v = Some _ => assert (Hwv : v = w) by congruence end. clear Hk.
    assert (Hin : In i (where_ N cand)) by (apply nth_error_In in Ei2; exact Ei2).
    pose proof Hin as Hin2. apply where_in in Hin2. destruct Hin2 as [HiN Hci].
    destruct (proj1 (HPc i) Hin) as [HPi Hsi].
    pose proof (remove_first_perm i _ Hin) as HPr. apply Permutation_length in HPr. cbn in HPr.
    destruct (IH m (seeds ++ [i]) (set_mask selected i true) (set_mask cand i false))
      as (picks & sel' & cand' & E & Hl & Hok' & HP' & Hlen & Hm).
    + apply chosen_ok_add; auto.
    + rewrite where_remove by assumption. lia.
    + intros j. rewrite where_in. unfold set_mask. rewrite in_app_iff. cbn [In].
      specialize (HPc j). rewrite where_in in HPc.
      destruct (Nat.eqb_spec j i) as [->|Hne].
      * split; [intros [_ H]; discriminate|]. intros [_ H]. exfalso. apply H. auto.
      * split; [intros H; apply HPc in H; intuition|].
        intros [H1 H2]. apply HPc. intuition.
    + exists (i :: picks), sel', cand'. rewrite where_remove in E, Hlen by assumption.
      rewrite <- app_assoc in E, Hok', HP'. cbn [app] in E, Hok', HP'.
      split; [exact E|]. split; [cbn; lia|]. split; [exact Hok'|]. split; [exact HP'|].
      split; [lia|].
      destruct Hok as (K1 & K3 & K4).
      constructor; auto.
      intros j HPj Hsj.
      assert (Hj : In j (where_ N cand)) by (apply HPc; auto).
      pose proof (selected_value N D (fun _ => 1) root selected seeds false j HN K3 K4) as V1.
      pose proof (selected_value N D (fun _ => 1) root selected seeds false i HN K3 K4) as V2.
      cbv iota beta in V1, V2. rewrite <- V1, <- V2.
      change (seed_value N D (fun _ => 1) root selected (match seeds with [] => true | _ => false end) false j
        <= seed_value N D (fun _ => 1) root selected (match seeds with [] => true | _ => false end) false i).
      rewrite Hwv. apply Hw. unfold vals.
      apply (in_map (seed_value N D (fun _ => 1) root selected (match seeds with [] => true | _ => false end) false)).
      exact Hj.
Qed.

Definition kinds (k : clustering) : list nat := where_ N (fun i => is_kind (kind i) k).

Lemma kinds_in k i : In i (kinds k) <-> (i < N)%nat /\ kind i = k.
Proof.
  unfold kinds. rewrite where_in. destruct (kind i), k; cbn; intuition discriminate.
Qed.

Lemma kinds_count : (length (kinds Fringe) + length (kinds Core) + length (kinds Outlier) = N)%nat.
Proof.
  unfold kinds, where_. rewrite <- (seq_length N 0) at 4. generalize (seq 0 N) as l.
  induction l as [|x l IH]; [reflexivity|]. cbn. destruct (kind x); cbn; lia.
Qed.

Lemma no_candidates_refill n seeds selected cand phase :
  match phase with Fringe => kinds Core <> [] | Core => kinds Outlier <> [] | Outlier => False end ->
  thoroughfare_loop N D root kind (S n) seeds selected cand [] phase
  = match phase with
    | Fringe => thoroughfare_loop N D root kind (S n) seeds selected (fun i => is_kind (kind i) Core) (kinds Core) Core
    | _ => thoroughfare_loop N D root kind (S n) seeds selected (fun i => is_kind (kind i) Outlier) (kinds Outlier) Outlier
    end.
Proof.
  intros H. destruct phase; [contradiction| |]; cbn [thoroughfare_loop]; unfold kinds in *.
  - destruct (where_ N (fun i => is_kind (kind i) Core)) as [|c l] eqn:E; [congruence|]. rewrite !E. reflexivity.
  - destruct (where_ N (fun i => is_kind (kind i) Outlier)) as [|c l] eqn:E; [congruence|]. rewrite !E. reflexivity.
Qed.

Definition kind_of (k : clustering) (i : nat) : Prop := (i < N)%nat /\ kind i = k.

(** From the core points on *)
Lemma after_fringe n seeds selected cand :
  chosen_ok seeds selected ->
  (forall i, In i seeds -> kind i = Fringe) ->
  kinds Core <> [] -> (n <= length (kinds Core) + length (kinds Outlier))%nat ->
  exists s2 s3, thoroughfare_loop N D root kind n seeds selected cand [] Fringe = Seeds (seeds ++ s2 ++ s3)
    /\ length (s2 ++ s3) = n
    /\ most_remote_first D root (fun _ => 1) (kind_of Core) seeds s2
    /\ most_remote_first D root (fun _ => 1) (kind_of Outlier) (seeds ++ s2) s3
    /\ all_first (kind_of Core) s2 s3.
Proof.
  intros Hok Hf Hc Hn.
  destruct n as [|n'].
  { exists [], []. cbn [thoroughfare_loop app]. rewrite app_nil_r. repeat split; auto; try constructor.
    intros H; congruence. }
  rewrite no_candidates_refill by assumption.
  assert (HcP : forall i, In i (kinds Core) <-> kind_of Core i /\ ~ In i seeds).
  { intros i. rewrite kinds_in. unfold kind_of. split; [|tauto].
    intros [H1 H2]. repeat split; auto. intros H. apply Hf in H. congruence. }
  set (a := Nat.min (S n') (length (kinds Core))).
  destruct (take_from (kind_of Core) Core a (S n' - a) seeds selected (fun i => is_kind (kind i) Core) Hok)
    as (s2 & sel2 & cand2 & E & Hl & Hok2 & HP2 & Hlen & Hm).
  { fold (kinds Core). unfold a. lia. }
  { exact HcP. }
  fold (kinds Core) in E, Hlen.
  replace (a + (S n' - a))%nat with (S n') in E by (unfold a; lia).
  rewrite E. clear E.
  destruct (S n' - a)%nat as [|m] eqn:Em.
  - exists s2, []. cbn [thoroughfare_loop]. rewrite !app_nil_r. repeat split; auto; try constructor.
    + lia.
    + intros H; congruence.
  - assert (Ha : a = length (kinds Core)) by (unfold a in *; lia).
    assert (E0 : where_ N cand2 = []) by (apply length_zero_iff_nil; lia).
    rewrite E0.
    rewrite no_candidates_refill by (intros E; rewrite E in Hn; cbn in Hn; lia).
    destruct (take_from (kind_of Outlier) Outlier (S m) 0 (seeds ++ s2) sel2 (fun i => is_kind (kind i) Outlier) Hok2)
      as (s3 & sel3 & cand3 & E & Hl3 & Hok3 & HP3 & Hlen3 & Hm3).
    { fold (kinds Outlier). lia. }
    { intros i. fold (kinds Outlier). rewrite kinds_in. unfold kind_of. split; [|tauto].
      intros [H1 H2]. repeat split; auto. intros H. apply in_app_iff in H. destruct H as [H|H].
      - apply Hf in H. congruence.
      - destruct (most_remote_sound _ _ _ _ _ _ Hm (proj1 Hok)) as [_ HF].
        rewrite Forall_forall in HF. apply HF in H. unfold kind_of in H. destruct H; congruence. }
    fold (kinds Outlier) in E. rewrite Nat.add_0_r in E. rewrite E. cbn [thoroughfare_loop].
    exists s2, s3. rewrite app_assoc. split; [reflexivity|]. split; [rewrite app_length; lia|].
    split; [exact Hm|]. split; [exact Hm3|].
    intros _ i Hi.
    destruct (in_dec Nat.eq_dec i s2) as [H|H]; [exact H|]. exfalso.
    assert (Hin : In i (where_ N cand2)).
    { apply HP2. split; [exact Hi|]. rewrite in_app_iff. intros [H'|H']; [|contradiction].
      apply Hf in H'. unfold kind_of in Hi. destruct Hi; congruence. }
    rewrite E0 in Hin. contradiction.
Qed.
End T.

Lemma thoroughfare_groups N D root kind K trial :
  (thoroughfare_nn trial < N)%nat -> (K <= N)%nat ->
  (exists i, (i < N)%nat /\ kind i = Core) ->
  exists s1 s2 s3,
    thoroughfare_seeds N D root kind K trial = Seeds (s1 ++ s2 ++ s3)
    /\ length (s1 ++ s2 ++ s3) = K
    /\ NoDup (s1 ++ s2 ++ s3)
    /\ Forall (kind_of N kind Fringe) s1 /\ Forall (kind_of N kind Core) s2 /\ Forall (kind_of N kind Outlier) s3
    /\ all_first (kind_of N kind Fringe) s1 (s2 ++ s3)
    /\ all_first (kind_of N kind Core) s2 s3
    /\ ((forall i, kind_of N kind Fringe i -> In i s1) \/
        most_remote_first D root (fun _ => 1) (kind_of N kind Fringe) [] s1)
    /\ most_remote_first D root (fun _ => 1) (kind_of N kind Core) s1 s2
    /\ most_remote_first D root (fun _ => 1) (kind_of N kind Outlier) (s1 ++ s2) s3.
Proof.
  intros Hnn HK (c & HcN & Hc).
  assert (HN : (0 < N)%nat) by lia.
  unfold thoroughfare_seeds. destruct (Nat.leb_spec N (thoroughfare_nn trial)) as [H|_]; [lia|].
  fold (kinds N kind Fringe).
  pose proof (kinds_count N kind) as Hcount.
  assert (Hcore : kinds N kind Core <> []).
  { intros E. assert (In c (kinds N kind Core)) by (apply kinds_in; auto). rewrite E in H. contradiction. }
  destruct (Nat.leb_spec (length (kinds N kind Fringe)) K) as [Hle|Hgt].
  - assert (Hok : chosen_ok N (kinds N kind Fringe)
             (fold_left (fun m i => set_mask m i true) (kinds N kind Fringe) (fun i => Nat.eqb i 0))).
    { assert (HlN : forall i, In i (kinds N kind Fringe) -> (i < N)%nat) by (intros i Hi; apply kinds_in in Hi; tauto).
      repeat split; auto; [apply where_nodup| |].
      - intros Hs. apply (fold_select N) in Hs; [|assumption]. destruct Hs as [Hs|Hs]; [left; lia|auto].
      - intros Hi. apply (fold_select N); [assumption|]. destruct Hi as [->|Hi]; auto. }
    destruct (after_fringe N D root kind HN (K - length (kinds N kind Fringe)) (kinds N kind Fringe)
               (fold_left (fun m i => set_mask m i true) (kinds N kind Fringe) (fun i => Nat.eqb i 0))
               (fun i => is_kind (kind i) Fringe) Hok) as (s2 & s3 & E & Hl & Hm2 & Hm3 & Hall).
    + intros i Hi. apply kinds_in in Hi. tauto.
    + exact Hcore.
    + lia.
    + destruct (most_remote_sound _ _ _ _ _ _ Hm2 (proj1 Hok)) as [Hn2 HF2].
      destruct (most_remote_sound _ _ _ _ _ _ Hm3 Hn2) as [Hn3 HF3].
      exists (kinds N kind Fringe), s2, s3. split; [exact E|].
      split; [rewrite app_length; lia|]. split; [rewrite <- app_assoc in Hn3; exact Hn3|].
      split; [apply Forall_forall; intros i Hi; apply kinds_in in Hi; exact Hi|].
      split; [exact HF2|]. split; [exact HF3|].
      assert (Hall1 : forall i, kind_of N kind Fringe i -> In i (kinds N kind Fringe)) by (intros i Hi; apply kinds_in; exact Hi).
      split; [intros _; exact Hall1|]. split; [exact Hall|]. split; [left; exact Hall1|].
      split; [exact Hm2|exact Hm3].
  - destruct (take_from N D root kind HN (kind_of N kind Fringe) Fringe K 0 [] (fun i => Nat.eqb i 0) (fun i => is_kind (kind i) Fringe))
      as (s1 & sel & cand & E & Hl & Hok & HP & Hlen & Hm).
    + split; [constructor|]. split; [intros i []|]. intros i Hi. split; [lia|]. intros [->|[]]. reflexivity.
    + fold (kinds N kind Fringe). lia.
    + intros i. fold (kinds N kind Fringe). rewrite kinds_in. unfold kind_of. cbn. tauto.
    + fold (kinds N kind Fringe) in E. rewrite Nat.add_0_r in E. cbn [app thoroughfare_loop] in E.
      destruct (most_remote_sound _ _ _ _ _ _ Hm (NoDup_nil _)) as [Hn1 HF1].
      exists s1, [], []. rewrite !app_nil_r. cbn [app] in *.
      split; [exact E|]. split; [exact Hl|]. split; [exact Hn1|]. split; [exact HF1|].
      split; [constructor|]. split; [constructor|].
      split; [intros H; congruence|]. split; [intros H; congruence|].
      split; [right; exact Hm|]. split; constructor.
Qed.

(** Without core points nothing can be chosen *)
Lemma no_core_fails N D root kind K trial :
  (thoroughfare_nn trial < N)%nat -> (1 <= K)%nat ->
  (forall i, (i < N)%nat -> kind i = Outlier) ->
  thoroughfare_seeds N D root kind K trial = Seed_value_error.
Proof.
  intros Hnn HK Hout.
  unfold thoroughfare_seeds. destruct (Nat.leb_spec N (thoroughfare_nn trial)) as [H|_]; [lia|].
  assert (E : forall k, k <> Outlier -> where_ N (fun i => is_kind (kind i) k) = []).
  { intros k Hk. destruct (where_ N (fun i => is_kind (kind i) k)) as [|x l] eqn:E; [reflexivity|].
    exfalso. assert (Hx : In x (kinds N kind k)) by (unfold kinds; rewrite E; left; reflexivity).
    apply kinds_in in Hx. destruct Hx as [H1 H2]. rewrite Hout in H2 by assumption. congruence. }
  rewrite (E Fringe) by discriminate. cbn [length Nat.leb fold_left]. rewrite Nat.sub_0_r.
  destruct K as [|K]; [lia|]. cbn [thoroughfare_loop]. rewrite (E Core) by discriminate. reflexivity.
Qed.
