(** * Proofs about interrupts in the savings variants *)
From Coq Require Import ZifyBool ZifyNat.
From Verif Require Import Spec Spec_inter Spec_ls Spec_savings PyBase M_util M_routedata M_driver M_psavings M_savfam M_savint Spec_savint
  P_base P_util P_cvrp P_psavings P_psavings2 P_savfam P_savfam2.

Lemma rate_encode D rs : Forall customers_only rs -> rate D (Some (encode rs)) = Some (encode rs, routes_cost D rs, length rs).
Proof.
  intros H. pose proof (candidate_encode D tt rs H) as E. unfold candidate in E. injection E as E1 E2.
  cbn [rate]. unfold encode at 1. f_equal. f_equal; [f_equal|]; [exact E1|exact E2].
Qed.

Section Best.
Context {A : Type}.
Variables (mk : bool) (D : matrix).

(** the best of the solutions seen so far *)
Definition binv (best : best_state A) (seen : list (A * option (list (list nat)))) : Prop :=
  match best with
  | None => seen = []
  | Some (p, None) => In p (map fst seen) /\ forall x, In x seen -> snd x = None
  | Some (p, Some (s, f, K)) => exists rs, s = encode rs /\ f = routes_cost D rs /\ K = length rs /\ In (p, Some rs) seen /\
      forall p' rs', In (p', Some rs') seen -> not_beaten mk D rs rs'
  end.

Lemma keep_best_inv best seen p o : binv best seen -> (forall rs, o = Some rs -> Forall customers_only rs) ->
  binv (keep_best D mk best p (option_map encode o)) (seen ++ [(p, o)]).
Proof.
  intros HI Ho. unfold keep_best. destruct o as [rs|].
  - cbn [option_map]. rewrite rate_encode by now apply Ho.
    assert (Hin : In (p, Some rs) (seen ++ [(p, Some rs)])) by (apply in_or_app; right; now left).
    destruct best as [[q [[[s f] K]|]]|]; cbn [better].
    + destruct HI as (r & -> & -> & -> & H1 & H2). destruct (is_better_sol _ _ _ _ _) eqn:E.
      * apply is_better_spec in E. exists rs. do 3 (split; [reflexivity|]). split; [exact Hin|].
        intros p' rs' H'. apply in_app_or in H'. destruct H' as [H'|[H'|[]]].
        -- intros Hb. apply (H2 p' rs' H'). eapply beats_trans; eassumption.
        -- injection H' as <- <-. unfold not_beaten. apply beats_irrefl.
      * exists r. do 3 (split; [reflexivity|]). split; [apply in_or_app; now left|].
        intros p' rs' H'. apply in_app_or in H'. destruct H' as [H'|[H'|[]]]; [now apply (H2 p')|].
        injection H' as <- <-. intros Hb. apply is_better_spec in Hb. congruence.
    + destruct HI as (H1 & H2). exists rs. do 3 (split; [reflexivity|]). split; [exact Hin|].
      intros p' rs' H'. apply in_app_or in H'. destruct H' as [H'|[H'|[]]]; [apply H2 in H'; discriminate|].
      injection H' as <- <-. unfold not_beaten. apply beats_irrefl.
    + cbn in HI. subst seen. exists rs. do 3 (split; [reflexivity|]). split; [exact Hin|].
      intros p' rs' [H'|[]]. injection H' as <- <-. unfold not_beaten. apply beats_irrefl.
  - cbn [option_map rate]. destruct best as [[q [[[s f] K]|]]|]; cbn [better].
    + destruct HI as (r & -> & -> & -> & H1 & H2). exists r. do 3 (split; [reflexivity|]). split; [apply in_or_app; now left|].
      intros p' rs' H'. apply in_app_or in H'. destruct H' as [H'|[H'|[]]]; [now apply (H2 p')|discriminate].
    + destruct HI as (H1 & H2). split; [rewrite map_app; apply in_or_app; now left|].
      intros x Hx. apply in_app_or in Hx. destruct Hx as [Hx|[<-|[]]]; [now apply H2|reflexivity].
    + cbn in HI. subst seen. split; [now left|]. intros x [<-|[]]. reflexivity.
Qed.

Lemma binv_some best seen p rs : binv best seen -> In (p, Some rs) seen ->
  exists q r, best_sol best = Some (encode r) /\ In (q, Some r) seen /\ forall p' rs', In (p', Some rs') seen -> not_beaten mk D r rs'.
Proof.
  intros HI Hin. destruct best as [[q [[[s f] K]|]]|].
  - destruct HI as (r & -> & -> & -> & H1 & H2). now exists q, r.
  - destruct HI as (H1 & H2). apply H2 in Hin. discriminate.
  - cbn in HI. subst. destruct Hin.
Qed.

Variable run : A -> option stop -> option run_end.
Variable stops : nat -> option stop.

(** the runs that go on *)
Lemma runs_prefix (good : list (list nat) -> Prop) l1 : (forall rs, good rs -> Forall customers_only rs) ->
  forall l2 t best seen, binv best seen ->
  (forall i p, nth_error l1 i = Some p -> exists o, run p (stops (t + i)%nat) = Some (option_map encode o, false) /\ (forall rs, o = Some rs -> good rs)) ->
  exists best' new, stopped_runs D mk run stops t (l1 ++ l2) best = stopped_runs D mk run stops (t + length l1) l2 best' /\
    binv best' (seen ++ new) /\ map fst new = l1 /\
    (forall i p, nth_error l1 i = Some p -> exists o, nth_error new i = Some (p, o) /\ run p (stops (t + i)%nat) = Some (option_map encode o, false) /\ (forall rs, o = Some rs -> good rs)).
Proof.
  intros Hg. induction l1 as [|p l1 IH]; intros l2 t best seen HI HR.
  - exists best, []. cbn [app length]. rewrite Nat.add_0_r, app_nil_r. split; [reflexivity|]. split; [exact HI|]. split; [reflexivity|].
    intros [|i] p H; discriminate H.
  - destruct (HR 0%nat p eq_refl) as (o & Eo & Ho). rewrite Nat.add_0_r in Eo.
    destruct (IH l2 (S t) (keep_best D mk best p (option_map encode o)) (seen ++ [(p, o)])) as (best' & new & E & HI' & Hf & HN).
    + apply keep_best_inv; [exact HI|]. intros rs Hrs. auto.
    + intros i q Hi. destruct (HR (S i) q Hi) as (o' & E1 & E2). exists o'. rewrite Nat.add_succ_r in E1. now split.
    + exists best', ((p, o) :: new). cbn [app stopped_runs]. rewrite Eo. rewrite E. split; [f_equal; cbn [length]; lia|].
      rewrite <- app_assoc in HI'. split; [exact HI'|]. split; [cbn; now rewrite Hf|].
      intros [|i] q Hi; [cbn in Hi; injection Hi as <-; exists o; rewrite Nat.add_0_r; auto|].
      destruct (HN i q Hi) as (o' & E1 & E2 & E3). exists o'. rewrite Nat.add_succ_r. auto.
Qed.

(** the runs up to one that is interrupted *)
Lemma runs_interrupted (good : list (list nat) -> Prop) l k pk rsk : (forall rs, good rs -> Forall customers_only rs) ->
  forall t best seen, binv best seen -> (forall p rs, In (p, Some rs) seen -> good rs) ->
  nth_error l k = Some pk -> run pk (stops (t + k)%nat) = Some (Some (encode rsk), true) -> good rsk ->
  (forall i p, (i < k)%nat -> nth_error l i = Some p -> exists o, run p (stops (t + i)%nat) = Some (option_map encode o, false) /\ (forall rs, o = Some rs -> good rs)) ->
  exists rs, stopped_runs D mk run stops t l best = Some (inr (Some (encode rs))) /\ good rs /\ not_beaten mk D rs rsk /\
    (forall p' rs', In (p', Some rs') seen -> not_beaten mk D rs rs') /\
    forall i p rs', (i < k)%nat -> nth_error l i = Some p -> run p (stops (t + i)%nat) = Some (Some (encode rs'), false) ->
      Forall customers_only rs' -> not_beaten mk D rs rs'.
Proof.
  intros Hg t best seen HI Hseen Hk Ek Hgk HR.
  assert (HS := firstn_skipn k l). assert (Hlen : (k < length l)%nat) by (apply nth_error_Some; congruence).
  assert (Hsk : skipn k l = pk :: skipn (S k) l).
  { clear -Hk. revert k Hk. induction l as [|x l IH]; intros [|k] Hk; try discriminate; [cbn in *; congruence|]. cbn in *. now apply IH. }
  assert (Hn : forall i, (i < k)%nat -> nth_error (firstn k l) i = nth_error l i).
  { clear. intros i. revert k l. induction i as [|i IH]; intros [|k] [|x l] H; try lia; try reflexivity. cbn. apply IH. lia. }
  assert (Hfl : length (firstn k l) = k) by (rewrite firstn_length; lia).
  destruct (runs_prefix good (firstn k l) Hg (pk :: skipn (S k) l) t best seen HI) as (best' & new & E & HI' & Hf & HN).
  { intros i p Hi. assert (i < k)%nat by (rewrite <- Hfl; apply nth_error_Some; congruence). apply HR; [assumption|]. now rewrite <- Hn. }
  rewrite <- Hsk, HS in E. rewrite Hsk in E. rewrite Hfl in E. cbn [stopped_runs] in E. rewrite Ek in E.
  set (b2 := keep_best D mk best' pk (Some (encode rsk))) in *.
  assert (HI2 : binv b2 ((seen ++ new) ++ [(pk, Some rsk)])).
  { apply (keep_best_inv best' (seen ++ new) pk (Some rsk)); [exact HI'|]. intros rs H. injection H as <-. auto. }
  destruct (binv_some b2 _ pk rsk HI2) as (q & r & B1 & B2 & B3); [apply in_or_app; right; now left|].
  rewrite B1 in E. exists r. split; [exact E|].
  assert (Hnew : forall p rs, In (p, Some rs) new -> good rs).
  { intros p rs Hin. apply In_nth_error in Hin. destruct Hin as (i & Hi).
    assert (Hp : nth_error (firstn k l) i = Some p) by (rewrite <- Hf, nth_error_map, Hi; reflexivity).
    destruct (HN i p Hp) as (o & F1 & _ & F3). rewrite Hi in F1. injection F1 as <-. now apply F3. }
  split.
  { apply in_app_or in B2. destruct B2 as [B2|[B2|[]]]; [|injection B2 as _ <-; exact Hgk].
    apply in_app_or in B2. destruct B2 as [B2|B2]; [now apply (Hseen q)|now apply (Hnew q)]. }
  split; [apply (B3 pk); apply in_or_app; right; now left|]. split; [intros p' rs' H'; apply (B3 p'); apply in_or_app; left; apply in_or_app; now left|].
  intros i p rs' Hi Hp Er Ho. rewrite <- Hn in Hp by assumption. destruct (HN i p Hp) as (o & F1 & F2 & F3). rewrite Er in F2.
  destruct o as [rs2|]; [|discriminate].
  assert (X : rs' = rs2) by (apply encode_inj; [exact Ho|now apply Hg, F3|cbn in F2; congruence]). subst rs2. apply (B3 p). apply in_or_app. left. apply in_or_app. right.
  now apply nth_error_In in F1.
Qed.

(** no run is interrupted *)
Lemma runs_on l : forall t best, (forall t p, In p l -> forall s b, run p (stops t) = Some (s, b) -> b = false) ->
  forall x, stopped_runs D mk run stops t l best = Some x -> exists b, x = inl b.
Proof.
  induction l as [|p l IH]; intros t best H x; cbn [stopped_runs].
  - intros E. injection E as <-. now eexists.
  - destruct (run p (stops t)) as [[s b]|] eqn:E; [|discriminate]. rewrite (H t p (or_introl eq_refl) s b E). apply IH. intros t' q Hq. apply H. now right.
Qed.
End Best.
