(** * Proofs about unknown types and the random problems *)
From Coq Require Import ZifyBool ZifyNat.
From Verif Require Import Spec Spec_inter Spec_savings Spec_all Spec_dist PyBase M_text M_dist P_cli4 P_all P_dist.

Definition known : list text := [str "MAX_2D"; str "MAN_2D"; str "CEIL_2D"; str "FLOOR_2D"; str "EUC_2D"; str "ATT"; str "GEO"; str "EXACT_2D"].
Lemma metric_known other q t : (exists f, metric other q (Some t) = Some f) <-> In t known.
Proof.
  unfold metric, known. cbn [In].
  repeat match goal with |- context [text_eqb t ?x] => destruct (text_eqb_spec t x) as [->|]; [split; [intros _; tauto|intros _; eexists; reflexivity]|] end.
  cbn [orb]. split; [intros (f & H); discriminate|]. intros H. exfalso. intuition congruence.
Qed.
Lemma cd_known other q pts t : (exists D, calculate_D other q pts t = Some D) <-> exists t', t = Some t' /\ In t' known.
Proof.
  unfold calculate_D. destruct t as [t|].
  - split.
    + intros (D & H). exists t. split; [reflexivity|]. apply (metric_known other q t). destruct (metric other q (Some t)) as [f|]; [now exists f|discriminate].
    + intros (t' & E & H). injection E as <-. apply (metric_known other q t) in H. destruct H as (f & ->). now eexists.
  - cbn. split; [intros (D & H); discriminate|intros (t' & H & _); discriminate].
Qed.

(** ** Random problems *)
Lemma generate_ok other q C draws : 0 < q -> q <= C ->
  exists pts ds n D, generate_CVRP other q C draws = Some (length draws, pts, ds, (n, D), C) /\
    calculate_D other q pts (Some (str "EUC_2D")) = Some (n, D) /\
    length pts = S (length draws) /\ length ds = S (length draws) /\ n = S (length draws) /\ nth 0 pts (0, 0) = (0, 0) /\ nth 0 ds 0 = 0 /\
    forall i, (1 <= i < n)%nat -> q <= nth i ds 0 <= C.
Proof.
  intros Hq HC. unfold generate_CVRP. destruct (proj2 (cd_known other q ((0, 0) :: map fst draws) (Some (str "EUC_2D")))) as ((n & D) & E).
  { exists (str "EUC_2D"). split; [reflexivity|]. unfold known. cbn [In]. tauto. }
  rewrite E. cbn [option_map]. do 4 eexists. split; [reflexivity|]. split; [exact E|]. apply cd_inv in E. destruct E as (-> & _). cbn [length nth]. rewrite !map_length.
  do 5 (split; [reflexivity|]). intros [|i] Hi; [lia|]. cbn [nth].
  destruct (nth_error draws i) as [x|] eqn:Ei; [|apply nth_error_None in Ei; lia].
  rewrite (nth_error_nth (map _ draws) i 0 (x := drawn_demand q C (snd x))) by (rewrite nth_error_map, Ei; reflexivity).
  unfold drawn_demand. lia.
Qed.

Lemma cli_problem other q draws eps : 0 < q -> 0 <= eps -> draws <> [] ->
  exists n D d C L, cli_random other q draws = Some (n, D, d, C, L) /\ n = S (length draws) /\ problem n D d C L eps /\
    C = Some 100 /\ L = None /\ forall i, (1 <= i < n)%nat -> 1 <= d i <= 100.
Proof.
  intros Hq He Hne. unfold cli_random. destruct (generate_ok other q (100 * q) draws Hq ltac:(lia)) as (pts & ds & n & D & E & ED & L1 & L2 & L3 & P0 & D0 & HB).
  rewrite E. cbn [option_map]. do 5 eexists. split; [reflexivity|]. split; [exact L3|].
  assert (EQ : forall i, nth i (map (fun x => Z.quot x q) ds) 0 = Z.quot (nth i ds 0) q).
  { intros i. replace (nth i (map (fun x => Z.quot x q) ds) 0) with (nth i (map (fun x => Z.quot x q) ds) (Z.quot 0 q)) by (rewrite Z.quot_0_l by lia; reflexivity). exact (map_nth (fun x => Z.quot x q) ds 0 i). }
  assert (HC : 100 * q / q = 100) by (apply Z.div_mul; lia).
  assert (HD : forall i, (1 <= i < n)%nat -> 1 <= nth i (map (fun x => Z.quot x q) ds) 0 <= 100).
  { intros i Hi. rewrite EQ. specialize (HB i Hi). rewrite Z.quot_div_nonneg by lia. split.
    - apply Z.div_le_lower_bound; lia.
    - apply Z.div_le_upper_bound; lia. }
  destruct (cd_shape other q pts _ n D ED) as (_ & S1 & S2).
  split; [|split; [now rewrite HC|split; [reflexivity|exact HD]]]. split.
  - destruct draws; [easy|]. cbn in L3. lia.
  - exact He.
  - exact S1.
  - apply (cd_nonneg other q Hq pts (str "EUC_2D") n D); [unfold ours; cbn [In]; tauto|exact ED].
  - apply S2.
  - intros i. destruct (Nat.lt_ge_cases i n) as [X|X].
    + destruct i; [rewrite EQ, D0, Z.quot_0_l by lia; lia|]. specialize (HD (S i) ltac:(lia)). lia.
    + rewrite nth_overflow; [lia|]. rewrite map_length. lia.
  - rewrite EQ, D0. apply Z.quot_0_l. lia.
  - intros i Hi. specialize (HD i Hi). rewrite HC. split; [|exact I]. unfold demand. cbn [map sumZ fold_right within]. set (x := nth i _ 0) in *. clearbody x. intros _. lia.
Qed.
