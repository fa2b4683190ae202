(** * Mole-Jameson: criteria, choice after interrupts *)
From Verif Require Import Spec Spec_inter Spec_driver Spec_savings Spec_cins PyBase M_util M_routedata M_intra M_inter M_driver M_psavings M_cins Spec_cins2 M_mj Spec_mj P_mj2 P_mj3.
Require Import ZifyBool ZifyNat Lia.

Lemma configurations_are c cfg : In cfg (configurations c) <-> tries c cfg.
Proof.
  unfold tries. split.
  - intros H. destruct c; cbn [configurations app In] in H; [left|left|left|left|left|right; split; [reflexivity|]].
    all: repeat match goal with [ H : _ \/ _ |- _ ] => destruct H as [H|H] | [ H : False |- _ ] => destruct H end; subst cfg; cbn [tries_one]; try reflexivity.
    all: try (first [exists 1; split; [lia|reflexivity] | exists 2; split; [lia|reflexivity] | exists 3; split; [lia|reflexivity] | exists 4; split; [lia|reflexivity] | exists 0; split; [lia|reflexivity] ]).
    all: first [exists ProximityRanking; reflexivity
      | exists Gaskell; first [exists 1; split; [lia|reflexivity] | exists 2; split; [lia|reflexivity] | exists 3; split; [lia|reflexivity] | exists 4; split; [lia|reflexivity] ]
      | exists AugmentedMinStrain; first [exists 0; split; [lia|reflexivity] | exists 1; split; [lia|reflexivity] | exists 2; split; [lia|reflexivity] | exists 3; split; [lia|reflexivity] ] ].
  - assert (Hone : forall c', tries_one c' cfg -> In cfg (configurations c') /\ In cfg (configurations AllCriteria)).
    { intros c' H. destruct c'; cbn [tries_one] in H.
      1-3: subst cfg; cbn; tauto.
      - destruct H as (mu & Hm & ->). assert (E : mu = 1 \/ mu = 2 \/ mu = 3 \/ mu = 4) by lia. destruct E as [->|[->|[->| ->]]]; cbn; tauto.
      - destruct H as (k & Hm & ->). assert (E : k = 0 \/ k = 1 \/ k = 2 \/ k = 3 \/ k = 4) by lia. destruct E as [->|[->|[->|[->| ->]]]]; cbn; tauto.
      - destruct H. }
    intros [H|(-> & c' & H)]; [now apply Hone|now apply (Hone c')].
Qed.

Section Choice.
Variable D : matrix.
Variable mk : bool.
Notation nb := (not_beaten mk D).
Definition holds (best : option (option (list nat))) (seen : list mj_event) : Prop :=
  match best with
  | Some (Some b) => exists rs, b = encode rs /\ Forall customers_only rs /\ (exists e, In e seen /\ given e = Some (encode rs)) /\
      forall e rs', In e seen -> given e = Some (encode rs') -> Forall customers_only rs' -> nb rs rs'
  | _ => forall e, In e seen -> given e = None
  end.

Lemma better_holds best seen e : holds best seen -> proper e -> holds (mj_better D mk best (given e)) (seen ++ [e]).
Proof.
  intros H Hp. destruct (given e) as [s|] eqn:Ee.
  - destruct (Hp s Ee) as (rs & -> & Hc).
    assert (Hfresh : (forall x, In x seen -> given x = None) -> holds (Some (Some (encode rs))) (seen ++ [e])).
    { intros Hn. exists rs. split; [reflexivity|]. split; [exact Hc|]. split; [exists e; split; [apply in_or_app; right; now left|exact Ee]|].
      intros x rs' Hx Ex Hc'. apply in_app_or in Hx as [Hx|[<-|[]]]; [rewrite (Hn x Hx) in Ex; discriminate|].
      rewrite Ee in Ex. assert (X : encode rs = encode rs') by congruence. apply P_cvrp.encode_inj in X; [subst; apply not_beaten_refl|assumption|assumption]. }
    destruct best as [[b|]|]; cbn [mj_better]; [|now apply Hfresh|now apply Hfresh].
    destruct H as (b' & -> & Hb & (x & Hx & Ex) & Hall). destruct (mj_better_spec D mk b' rs Hb Hc) as (r & E & Hr & N1 & N2). cbn [mj_better] in E. rewrite E.
    exists r. split; [reflexivity|]. split; [destruct Hr; subst; assumption|]. split.
    + destruct Hr as [->| ->]; [exists x; split; [apply in_or_app; now left|exact Ex]|exists e; split; [apply in_or_app; right; now left|exact Ee]].
    + intros y rs' Hy Ey Hc'. apply in_app_or in Hy as [Hy|[<-|[]]]; [eapply not_beaten_trans; [exact N1|eapply Hall; eassumption]|].
      rewrite Ee in Ey. assert (X : encode rs = encode rs') by congruence. apply P_cvrp.encode_inj in X; [now subst|assumption|assumption].
  - assert (Hsame : holds best (seen ++ [e])).
    { destruct best as [[b|]|]; cbn [holds] in *.
      - destruct H as (b' & -> & Hb & (x & Hx & Ex) & Hall). exists b'. split; [reflexivity|]. split; [exact Hb|]. split; [exists x; split; [apply in_or_app; now left|exact Ex]|].
        intros y rs' Hy Ey Hc'. apply in_app_or in Hy as [Hy|[<-|[]]]; [eapply Hall; eassumption|congruence].
      - intros y Hy. apply in_app_or in Hy as [Hy|[<-|[]]]; auto.
      - intros y Hy. apply in_app_or in Hy as [Hy|[<-|[]]]; auto. }
    destruct best as [[b|]|]; exact Hsame.
Qed.
Lemma choose_prefix : forall evs best seen, holds best seen -> Forall proper evs -> Forall (fun e => ~ interrupts e) evs ->
  exists best', holds best' (seen ++ evs) /\ forall tail, mj_choose D mk best (evs ++ tail) = mj_choose D mk best' tail.
Proof.
  induction evs as [|e evs IH]; intros best seen H Hp Hn; [exists best; rewrite app_nil_r; auto|]. inversion Hp as [|? ? P1 P2]; subst. inversion Hn as [|? ? N1 N2]; subst.
  destruct (IH _ _ (better_holds best seen e H P1) P2 N2) as (best' & K1 & K2). rewrite <- app_assoc in K1. exists best'. split; [exact K1|]. intros tail. cbn [app].
  destruct e as [s|s|s]; cbn [mj_choose]; [apply K2|exfalso; apply N1; now exists s|apply K2].
Qed.

Lemma mj_ends_with evs : Forall proper evs -> Forall (fun e => ~ interrupts e) evs -> (exists e s, In e evs /\ given e = Some s) ->
  exists rs, mj_choose D mk None evs = Returns (Some (encode rs)) /\ (exists e, In e evs /\ given e = Some (encode rs)) /\
    forall e rs', In e evs -> given e = Some (encode rs') -> Forall customers_only rs' -> nb rs rs'.
Proof.
  intros Hp Hn (e & s & He & Es). destruct (choose_prefix evs None [] (fun _ F => match F with end) Hp Hn) as (best & H & E). specialize (E []). rewrite app_nil_r in E. rewrite E. cbn [app] in H.
  destruct best as [[b|]|]; cbn [holds] in H; [|rewrite (H e He) in Es; discriminate|rewrite (H e He) in Es; discriminate].
  destruct H as (rs & -> & _ & H1 & H2). exists rs. split; [reflexivity|]. split; [exact H1|exact H2].
Qed.
Lemma mj_interrupted_with evs s later : Forall proper evs -> Forall (fun e => ~ interrupts e) evs -> proper (WithSolution s) ->
  exists rs, mj_choose D mk None (evs ++ WithSolution s :: later) = Interrupts (Some (encode rs)) /\ (exists e, In e (evs ++ [WithSolution s]) /\ given e = Some (encode rs)) /\
    forall e rs', In e (evs ++ [WithSolution s]) -> given e = Some (encode rs') -> Forall customers_only rs' -> nb rs rs'.
Proof.
  intros Hp Hn Hs. destruct (choose_prefix evs None [] (fun _ F => match F with end) Hp Hn) as (best & H & E). rewrite E. cbn [app] in H. cbn [mj_choose].
  assert (K := better_holds best evs (WithSolution s) H Hs). cbn [given] in K.
  destruct (mj_better D mk best (Some s)) as [[b|]|]; cbn [holds] in K.
  2,3: exfalso; assert (X := K (WithSolution s) ltac:(apply in_or_app; right; now left)); discriminate.
  destruct K as (rs & -> & _ & H1 & H2). exists rs. split; [reflexivity|]. split; [exact H1|exact H2].
Qed.
End Choice.

Lemma mj_result2 eps N D d C L mk :
    0 <= eps -> metric D -> (forall n, 0 <= d n) -> d 0%nat = 0 -> (2 <= N)%nat -> served_alone N D d C L eps eps ->
    exists fuel0, forall fuel, (fuel0 <= fuel)%nat -> forall ident c,
    exists rs, mole_jameson_insertion_init eps N D d C L mk ident c fuel = Some (Some (Returns (Some (encode rs)))) /\
      serves N D d C L eps eps rs /\ (forall op, In op [4; 0]%nat -> cannot_improve eps D d C L op rs) /\
      (forall cfg, tries c cfg -> exists rs0 pts rs',
         mj_insertion eps N D d C L ident fuel cfg = Some (Solution (encode rs0), pts) /\ serves N D d C L eps eps rs0 /\
         not_beaten mk D rs rs0 /\
         mj_run eps N D d C L mk ident fuel cfg = Some (OneSol (encode rs')) /\ serves N D d C L eps eps rs' /\
         not_beaten mk D rs rs').
Proof.
  intros. destruct (mj_result eps N D d C L mk H H0 H1 H2 H3 H4) as [f0 Hf]. exists f0. intros fuel Hfu ident c. destruct (Hf fuel Hfu ident c) as (rs & A & B & Cc & E). exists rs.
  split; [exact A|]. split; [exact B|]. split; [exact Cc|]. intros cfg Hc. apply E. now apply configurations_are.
Qed.
