(** * Proofs about lr3opt: in a metric, large multipliers force a feasible solution *)
From Coq Require Import ZifyBool ZifyNat.
From Verif Require Import Spec Spec_inter Spec_savings Spec_3optstar Spec_lr3opt PyBase M_util M_cvrp_ops M_psavings M_3optstar M_lr3opt M_lr3opt2 P_base P_util P_cvrp P_savfam P_lr3opt P_3optstar7 P_lr3opt3 P_lr3opt4 P_lr3opt5 P_lr3opt6.

Lemma path_split D l x t : path_cost D (l ++ x :: t) = path_cost D (l ++ [x]) + path_cost D (x :: t).
Proof.
  induction l as [|y l IH]; [cbn [app]; change (path_cost D [x]) with 0; lia|]. destruct l as [|z l].
  - cbn [app]. rewrite !path_cost_cons2. change (path_cost D [x]) with 0. lia.
  - cbn [app] in *. rewrite !path_cost_cons2, IH. lia.
Qed.
Lemma path_far D : triangle D -> forall l x y, D x y <= path_cost D (x :: l ++ [y]).
Proof.
  intros HT. induction l as [|z l IH]; intros x y; cbn [app]; rewrite path_cost_cons2; [change (path_cost D [y]) with 0; lia|].
  pose proof (IH z y). pose proof (HT x z y). lia.
Qed.
Lemma first_bad {A} (P : list A -> Prop) (dec : forall l, {P l} + {~ P l}) : P [] -> forall l, ~ P l -> exists a x t, l = a ++ x :: t /\ P a /\ ~ P (a ++ [x]).
Proof.
  intros H0. induction l as [|x l IH] using rev_ind; intros Hn; [contradiction|]. destruct (dec l) as [H|H].
  - exists l, x, []. now repeat split.
  - destruct (IH H) as (a & y & t & -> & Ha & Hy). exists a, y, (t ++ [x]). split; [now rewrite <- app_assoc|]. now split.
Qed.
Lemma within_dec lim eps x : {within lim eps x} + {~ within lim eps x}.
Proof.
  destruct lim as [c|]; [|now left]. cbn. destruct (Z.eq_dec c 0) as [->|Hc]; [left; easy|].
  destruct (Z_le_dec x (c + eps)) as [H|H]; [left; auto|right; intros G; specialize (G Hc); lia].
Qed.
Lemma excess_le lim eps x y : 0 <= eps -> y <= x -> excess lim eps y <= excess lim eps x.
Proof. intros He H. unfold excess. destruct lim as [c|]; [|lia]. destruct (c =? 0); cbn [orb]; [lia|]. destruct (Z.leb_spec y (c + eps)), (Z.leb_spec x (c + eps)); lia. Qed.
Lemma excess_lt lim eps x y : 0 <= eps -> y < x -> ~ within lim eps x -> excess lim eps y + 1 <= excess lim eps x.
Proof.
  intros He H Hn. unfold excess, within in *. destruct lim as [c|]; [|tauto]. destruct (Z.eqb_spec c 0) as [Ec|Ec]; cbn [orb]; [exfalso; apply Hn; intros; contradiction|].
  destruct (Z.leb_spec x (c + eps)) as [G|G]; [exfalso; apply Hn; auto|]. destruct (Z.leb_spec y (c + eps)); lia.
Qed.

Section Split.
  Variables (ceps seps : Z) (D : matrix) (d : demands) (C L : limit).
  Hypothesis HD : symmetric D.
  Hypothesis HT : triangle D.
  Hypothesis D0 : D 0%nat 0%nat = 0.
  Hypothesis dN : forall n, 0 <= d n.
  Hypothesis zero_within : within C ceps 0 /\ within L seps 0.
  Notation feas := (feasible D d C L ceps seps).
  Lemma feas_dec r : {feas r} + {~ feas r}.
  Proof using. unfold feasible. destruct (within_dec C ceps (demand d r)); [destruct (within_dec L seps (route_cost D r)); [left; now split|]|]; right; intros []; contradiction. Qed.
  Lemma demand_nn r : 0 <= demand d r.
  Proof using dN. unfold demand. now apply sum_nonneg. Qed.
  Lemma route_split a x t : route_cost D (a ++ x :: t) = path_cost D (0%nat :: a ++ [x]) + path_cost D (x :: t ++ [0%nat]).
  Proof using.
    unfold route_cost. replace (0%nat :: (a ++ x :: t) ++ [0%nat]) with ((0%nat :: a) ++ x :: (t ++ [0%nat])) by (cbn; now rewrite <- app_assoc).
    rewrite path_split. reflexivity.
  Qed.
  Lemma within_le lim eps x y : y <= x -> within lim eps x -> within lim eps y.
  Proof using. destruct lim as [c|]; [|easy]. cbn. intros H G Hc. specialize (G Hc). lia. Qed.

  (** A route that is too large or too long can be cut so that the first part is feasible and the second part is smaller
      or shorter than the route. *)
  Lemma cut r : ~ feas r -> (forall n, In n r -> feas [n]) -> exists a b, r = a ++ b /\ a <> [] /\ b <> [] /\ feas a /\
    demand d b <= demand d r /\ route_cost D b <= route_cost D r /\
    (~ within C ceps (demand d r) /\ demand d b < demand d r \/ ~ within L seps (route_cost D r) /\ route_cost D b < route_cost D r).
  Proof using All.
    intros Hr Ha. assert (H0 : feas []) by (split; [apply zero_within|unfold route_cost; cbn [app]; rewrite path_cost_cons2, D0; change (path_cost D [0%nat]) with 0; apply zero_within]).
    destruct (first_bad feas feas_dec H0 r Hr) as (a & x & t & -> & Hfa & Hbad). exists a, (x :: t).
    assert (Hx : feas [x]) by (apply Ha, in_or_app; right; now left).
    assert (Hdx : demand d (a ++ x :: t) = demand d a + d x + demand d t) by (unfold demand; rewrite map_app, sumZ_app; cbn [map]; rewrite sumZ_cons; lia).
    assert (Hdb : demand d (x :: t) = d x + demand d t) by (unfold demand; cbn [map]; now rewrite sumZ_cons).
    assert (Hda : demand d (a ++ [x]) = demand d a + d x) by (unfold demand; rewrite map_app, sumZ_app; cbn [map]; rewrite sumZ_cons; cbn; lia).
    pose proof (demand_nn a) as Ga. pose proof (demand_nn t) as Gt.
    pose proof (route_split a x t) as Er. pose proof (route_split [] x t) as Eb. pose proof (route_split a x []) as Ea. pose proof (route_split [] x []) as Ex.
    cbn [app] in Eb, Ea, Ex. rewrite !path_cost_cons2 in Eb, Ex. change (path_cost D [x]) with 0 in *. rewrite path_cost_cons2 in Ea. change (path_cost D [0%nat]) with 0 in *.
    assert (Ex1 : path_cost D [x; 0%nat] = D x 0%nat) by (rewrite path_cost_cons2; cbn; lia).
    pose proof (path_far D HT a 0%nat x) as F1. pose proof (path_far D HT t x 0%nat) as F2. pose proof (HD x 0%nat) as S1.
    split; [reflexivity|]. split; [intros ->; contradiction|]. split; [discriminate|]. split; [exact Hfa|].
    split; [rewrite Hdx, Hdb; lia|]. split; [lia|]. destruct Hx as [HxC HxL].
    destruct (within_dec C ceps (demand d (a ++ [x]))) as [HC|HC].
    - right. assert (HL : ~ within L seps (route_cost D (a ++ [x]))) by (intros G; now apply Hbad).
      split; [intros G; apply HL; revert G; apply within_le; lia|]. destruct (Z_lt_dec (route_cost D (x :: t)) (route_cost D (a ++ x :: t))) as [G|G]; [exact G|].
      exfalso. apply HL. revert HxL. apply within_le. lia.
    - left. split; [intros G; apply HC; revert G; apply within_le; lia|]. destruct (Z.eq_dec (demand d a) 0) as [G|G]; [|lia].
      exfalso. apply HC. revert HxC. apply within_le. unfold demand at 2. cbn. lia.
  Qed.
End Split.

(** The cut is a 3-opt* move, with the empty route at the end. *)
Lemma cut_neighbour pre a b post : b <> [] -> neighbour_3optstar (encode (pre ++ (a ++ b) :: post ++ [[]])) (encode (pre ++ a :: b :: post)).
Proof.
  intros Hb. destruct (P_3optstar2.encode_snoc0 post) as (q & Eq).
  assert (E1 : encode (pre ++ (a ++ b) :: post ++ [[]]) = (encode pre ++ a) ++ (b ++ q) ++ [0%nat] ++ [0%nat]).
  { unfold encode in *. rewrite flat_map_app. cbn [flat_map]. rewrite flat_map_app. cbn [flat_map app].
    rewrite <- !app_assoc. cbn [app]. do 4 f_equal. change (0%nat :: flat_map (fun r => r ++ [0%nat]) post ++ [0%nat]) with ((0%nat :: flat_map (fun r => r ++ [0%nat]) post) ++ [0%nat]).
    rewrite Eq. now rewrite <- app_assoc. }
  assert (E2 : encode (pre ++ a :: b :: post) = (encode pre ++ a) ++ [0%nat] ++ (b ++ q) ++ [0%nat]).
  { unfold encode in *. rewrite flat_map_app. cbn [flat_map]. rewrite <- !app_assoc. cbn [app]. do 5 f_equal. now rewrite Eq. }
  exists (encode pre ++ a), (b ++ q), [0%nat], [0%nat]. split; [exact E1|]. split; [now destruct a|]. split; [now destruct b|]. split; [discriminate|]. split; [discriminate|].
  left. unfold reconnections. rewrite E2. right. right. right. now left.
Qed.
Lemma empty_last rs : Forall customers_only rs -> ends_with_empty (encode rs) = true -> exists rs0, rs = rs0 ++ [[]].
Proof.
  intros Hc He. destruct rs as [|r rs _] using rev_ind; [discriminate|]. exists rs. f_equal. destruct r as [|x r _] using rev_ind; [reflexivity|]. exfalso.
  unfold encode in He. rewrite flat_map_app in He. cbn [flat_map] in He. rewrite app_nil_r in He. unfold ends_with_empty in He.
  assert (E : 0%nat :: flat_map (fun r => r ++ [0%nat]) rs ++ (r ++ [x]) ++ [0%nat] = (0%nat :: flat_map (fun r => r ++ [0%nat]) rs ++ r) ++ [x] ++ [0%nat]) by (cbn [app]; now rewrite <- !app_assoc).
  rewrite E, !rev_app_distr in He. cbn [rev app] in He.
  apply Forall_app in Hc. destruct Hc as [_ Hc]. inversion Hc as [|? ? Hx _]. apply Forall_app in Hx. destruct Hx as [_ Hx]. inversion Hx as [|? ? Hx0 _].
  rewrite Nat.eqb_refl in He. cbn [andb] in He. apply Nat.eqb_eq in He. contradiction.
Qed.

  Lemma Forall_not {A} (P : A -> Prop) (dec : forall x, {P x} + {~ P x}) l : ~ Forall P l -> exists l1 x l2, l = l1 ++ x :: l2 /\ ~ P x.
  Proof.
    induction l as [|x l IH]; intros H; [exfalso; apply H; constructor|]. destruct (dec x) as [Hx|Hx].
    - destruct IH as (l1 & y & l2 & -> & Hy); [intros G; apply H; now constructor|]. now exists (x :: l1), y, l2.
    - now exists [], x, l.
  Qed.

(** If every solution to which no move applies is feasible, the multipliers are not doubled again. *)
Section Top.
  Variables (ceps seps : Z) (D : matrix) (d : demands) (C L : limit) (K : Z) (inf : Z -> bool) (max_incs : option nat) (cs : list nat).
  Hypothesis HsE : 0 <= seps.
  Hypothesis HcE : 0 <= ceps.
  Hypothesis HK : 0 < K.
  Hypothesis HD : symmetric D.
  Hypothesis DN : nonneg_matrix D.
  Hypothesis D0 : D 0%nat 0%nat = 0.
  Hypothesis dN : forall n, 0 <= d n.
  Hypothesis zero_within : within C ceps 0 /\ within L seps 0.
  Notation feas := (feasible D d C L ceps seps).
  Notation rlx lC lL := (relaxed K lC lL D d C L ceps seps).
  Variable po : bool.
  Notation step := (lr_step ceps seps D d C L K inf po max_incs).
  Notation ends := (ends ceps seps D d C L K inf max_incs po).
  Notation good_state := (good_state cs).
  Lemma step_doubles s lC lL : lr_post s = false -> ends_with_empty (lr_sol s) = true -> step s = inl (mklr (lr_sol s) lC lL (S (lr_incs s)) false) ->
    lam_ok s -> (exists rs, lr_sol s = encode rs /\ Forall customers_only rs) ->
    do_3optstar_with (check_lr3opt_move ceps seps D C L K (lam_or_zero (lr_lC s)) (lam_or_zero (lr_lL s))) (lr_sol s) D d true None = None /\
    check_CL_constraints ceps seps (lr_sol s) D d C L = false.
  Proof using HsE HcE HK HD DN D0 dN zero_within.
    intros Hp He Hs (H1 & H2) (rs & Es & Hc). unfold lr_step in Hs. rewrite Hp, He in Hs. cbn [negb] in Hs.
    match type of Hs with context [do_3optstar_with ?c _ _ _ _ _] => destruct (do_3optstar_with c (lr_sol s) D d true None) as [[new dl]|] eqn:Em end.
    - rewrite Es in Em. pose proof (never_same ceps seps D d C L K HsE HcE HD DN D0 dN zero_within _ _ HK H1 H2 rs new dl Hc Em) as Hns. rewrite Es in Hs. destruct (list_eq_dec _ _ _); [contradiction|]. discriminate.
    - split; [reflexivity|]. destruct (check_CL_constraints ceps seps (lr_sol s) D d C L); [|reflexivity]. destruct po; discriminate.
  Qed.

  Lemma ends_top lC lL :
    (forall rs, 0 <= lam_or_zero lC -> 0 <= lam_or_zero lL -> Forall customers_only rs -> Permutation (concat rs) cs -> ends_with_empty (encode rs) = true ->
       do_3optstar_with (check_lr3opt_move ceps seps D C L K (lam_or_zero lC) (lam_or_zero lL)) (encode rs) D d true None = None -> Forall feas rs) ->
    forall n rs s, (Z.to_nat (rlx (lam_or_zero lC) (lam_or_zero lL) rs) * 2 + flag (encode rs) <= n)%nat ->
      lr_lC s = lC -> lr_lL s = lL -> good_state s rs -> ends s.
  Proof using All.
    intros Hfeas. induction n as [n IH] using lt_wf_ind. intros rs s Hn EC EL (Es & Hc & HP & Hl & Hp).
    pose proof Hl as (Hl1 & Hl2). rewrite EC in Hl1. rewrite EL in Hl2.
    destruct (step_cases ceps seps D d C L K inf max_incs cs HsE HcE HK HD DN D0 dN zero_within po s rs Es Hc HP Hl Hp) as [(r & Hr)|[(He & Hr)|[(rs' & Hr & W & P' & Hlt)|[(He & Hr & _)|(He & HF & Hr)]]]].
    - now apply (ends_ret ceps seps D d C L K inf max_incs cs HsE HcE HK HD DN D0 dN zero_within po s r).
    - eapply (ends_step ceps seps D d C L K inf max_incs cs HsE HcE HK HD DN D0 dN zero_within po); [exact Hr|].
      assert (Er : rlx (lam_or_zero lC) (lam_or_zero lL) (rs ++ [[]]) = rlx (lam_or_zero lC) (lam_or_zero lL) rs).
      { destruct zero_within as (HC0 & HL0).
        rewrite <- (relaxed_filter ceps seps D d C L K _ _ HC0 HL0 D0 (rs ++ [[]])), <- (relaxed_filter ceps seps D d C L K _ _ HC0 HL0 D0 rs). now rewrite filter_app, app_nil_r. }
      apply (IH (Z.to_nat (rlx (lam_or_zero lC) (lam_or_zero lL) rs) * 2)%nat) with (rs := rs ++ [[]]).
      + unfold flag in Hn. rewrite He in Hn. lia.
      + rewrite Er. unfold flag. rewrite encode_snoc, flag_snoc by apply encode_last. lia.
      + exact EC.
      + exact EL.
      + split; [reflexivity|]. split; [apply Forall_app; split; [exact Hc|repeat constructor]|]. split; [rewrite concat_app; cbn; now rewrite app_nil_r|]. now split.
    - eapply (ends_step ceps seps D d C L K inf max_incs cs HsE HcE HK HD DN D0 dN zero_within po); [exact Hr|]. rewrite EC, EL in Hlt.
      pose proof (relaxed_nonneg ceps seps D d C L K inf max_incs cs HsE HcE HK HD DN D0 dN zero_within po _ _ rs' Hl1 Hl2) as Hnn.
      apply (IH (Z.to_nat (rlx (lam_or_zero lC) (lam_or_zero lL) rs') * 2 + 1)%nat) with (rs := rs').
      + lia.
      + unfold flag. destruct (ends_with_empty _); lia.
      + exact EC.
      + exact EL.
      + split; [reflexivity|]. split; [exact W|]. split; [exact P'|]. now split.
    - exfalso. rewrite <- Es in He. destruct (step_doubles s (double (lr_lC s)) (double (lr_lL s)) Hp He) as (Em & Ech); [now rewrite Hr, Es|exact Hl|now exists rs|].
      rewrite Es in He, Em, Ech. rewrite EC, EL in Em.
      pose proof (Hfeas rs Hl1 Hl2 Hc HP He Em) as HF.
      apply (check_encode ceps seps D d C L DN dN rs Hc (proj1 zero_within)) in HF. congruence.
    - eapply (ends_step ceps seps D d C L K inf max_incs cs HsE HcE HK HD DN D0 dN zero_within po); [exact Hr|].
      eapply (ends_post ceps seps D d C L K inf max_incs cs HsE HcE HK HD DN D0 dN zero_within po) with (rs := rs); [reflexivity|reflexivity|exact Hc|exact HF|reflexivity].
  Qed.
End Top.

Section Metric.
  Variables (ceps seps : Z) (D : matrix) (d : demands) (C L : limit) (K : Z) (inf : Z -> bool) (max_incs : option nat) (cs : list nat).
  Hypothesis HsE : 0 <= seps.
  Hypothesis HcE : 0 <= ceps.
  Hypothesis HK : 0 < K.
  Hypothesis HD : symmetric D.
  Hypothesis DN : nonneg_matrix D.
  Hypothesis D0 : D 0%nat 0%nat = 0.
  Hypothesis dN : forall n, 0 <= d n.
  Hypothesis zero_within : within C ceps 0 /\ within L seps 0.
  Hypothesis HT : triangle D.
  Notation feas := (feasible D d C L ceps seps).
  Hypothesis Halone : forall n, In n cs -> feas [n].
  Notation rlx lC lL := (relaxed K lC lL D d C L ceps seps).
  Definition HB := K * (cost_bound D cs + seps).

  (** With large multipliers, a solution to which no move applies is feasible. *)
  Lemma high_feasible lC lL rs : (limit_set C -> HB < lC \/ forall n, In n cs -> d n = 0) -> (limit_set L -> HB < lL) -> 0 <= lC -> 0 <= lL ->
    Forall customers_only rs -> Permutation (concat rs) cs -> ends_with_empty (encode rs) = true ->
    do_3optstar_with (check_lr3opt_move ceps seps D C L K lC lL) (encode rs) D d true None = None -> Forall feas rs.
  Proof using All.
    intros HlC HlL H1 H2 Hc HP He Hn. destruct (Forall_dec feas (feas_dec ceps seps D d C L) rs) as [H|H]; [exact H|exfalso].
    destruct (empty_last rs Hc He) as (rs0 & ->).
    assert (H0 : ~ Forall feas rs0).
    { intros G. apply H. apply Forall_app. split; [exact G|]. constructor; [|constructor]. split; [apply zero_within|]. unfold route_cost. cbn. rewrite D0. apply zero_within. }
    destruct (Forall_not feas (feas_dec ceps seps D d C L) rs0 H0) as (pre & r & post & -> & Hr).
    assert (Hin : forall n, In n r -> In n cs).
    { intros n Hi. apply (Permutation_in _ HP). rewrite !concat_app. cbn [concat]. apply in_or_app. left. apply in_or_app. right. apply in_or_app. now left. }
    destruct (cut ceps seps D d C L HD HT D0 dN zero_within r Hr (fun n Hi => Halone n (Hin n Hi))) as (a & b & -> & Ha & Hb & Hfa & Gd & Gc & Hstrict).
    pose proof (cut_neighbour pre a b post Hb) as HN. replace ((pre ++ (a ++ b) :: post) ++ [[]]) with (pre ++ (a ++ b) :: post ++ [[]]) in * by (rewrite <- app_assoc; reflexivity).
    assert (Hc' : Forall customers_only (pre ++ a :: b :: post)).
    { apply Forall_app in Hc. destruct Hc as [Hc1 Hc2]. inversion Hc2 as [|? ? Hab Hc3]. subst. apply Forall_app in Hc3. destruct Hc3 as [Hc3 _]. apply Forall_app in Hab. destruct Hab as [Hca Hcb].
      apply Forall_app. split; [exact Hc1|]. constructor; [exact Hca|]. constructor; [exact Hcb|exact Hc3]. }
    assert (HP' : Permutation (concat (pre ++ a :: b :: post)) cs).
    { rewrite <- HP. rewrite !concat_app. cbn [concat]. rewrite !concat_app. cbn [concat]. rewrite !app_nil_r, <- !app_assoc. apply Permutation_refl. }
    pose proof (lr_move_none ceps seps D d C L K lC lL true _ HcE HsE ltac:(lia) H1 H2 HD (proj1 zero_within) (proj2 zero_within) Hc Hn _ Hc' HN) as HR.
    pose proof (cost_le D cs _ DN D0 HP') as B1.
    assert (B2 : 0 <= routes_cost D (pre ++ (a ++ b) :: post ++ [[]])) by (apply sum_nonneg; intros; apply P_3optstar5.path_nn, DN).
    unfold relaxed in HR. set (c1 := routes_cost D _) in HR, B2. set (c2 := routes_cost D _) in HR, B1.
    rewrite !map_app, !sumZ_app in HR. cbn [map] in HR. rewrite !sumZ_cons in HR. rewrite !map_app, !sumZ_app in HR. cbn [map] in HR.
    destruct Hfa as [HfaC HfaL]. apply within_excess in HfaC, HfaL; try assumption. rewrite HfaC, HfaL in HR.
    assert (Z1 : excess C ceps (demand d []) = 0) by (apply within_excess; [assumption|]; apply zero_within).
    assert (Z2 : excess L seps (route_cost D []) = 0) by (apply within_excess; [assumption|]; unfold route_cost; cbn; rewrite D0; apply zero_within).
    rewrite Z1, Z2 in HR. change (sumZ [0]) with 0 in HR.
    pose proof (excess_le C ceps _ _ HcE Gd) as M1. pose proof (excess_le L seps _ _ HsE Gc) as M2.
    set (sc1 := sumZ (map _ pre)) in HR. set (sc2 := sumZ (map _ post)) in HR. set (sl1 := sumZ (map _ pre)) in HR. set (sl2 := sumZ (map _ post)) in HR.
    set (eb := excess C ceps (demand d b)) in *. set (er := excess C ceps (demand d (a ++ b))) in *.
    set (fb := excess L seps (route_cost D b)) in *. set (fr := excess L seps (route_cost D (a ++ b))) in *.
    assert (HX : lC * (er - eb) + lL * (fr - fb) <= HB) by (unfold HB; nia).
    destruct Hstrict as [[Hv Hs]|[Hv Hs]].
    - pose proof (excess_lt C ceps _ _ HcE Hs Hv) as M3. fold eb er in M3.
      assert (HCs : limit_set C) by (unfold within, limit_set in *; destruct C; [intros ->; now apply Hv|tauto]).
      destruct (HlC HCs) as [G|G]; [nia|]. apply Hv. replace (demand d (a ++ b)) with 0; [apply zero_within|]. unfold demand. clear - G Hin. induction (a ++ b) as [|x l IH]; [reflexivity|].
      cbn [map]. rewrite sumZ_cons, <- IH by (intros; apply Hin; now right). rewrite G by (apply Hin; now left). reflexivity.
    - pose proof (excess_lt L seps _ _ HsE Hs Hv) as M3. fold fb fr in M3.
      assert (HLs : limit_set L) by (unfold within, limit_set in *; destruct L; [intros ->; now apply Hv|tauto]).
      specialize (HlL HLs). nia.
  Qed.

  Variable po : bool.
  Notation step := (lr_step ceps seps D d C L K inf po max_incs).
  Notation ends := (ends ceps seps D d C L K inf max_incs po).
  Notation good_state := (good_state cs).
  (** The multipliers are positive where there is a limit. *)
  Definition positive (lC lL : option Z) : Prop :=
    (limit_set C -> 0 < lam_or_zero lC \/ forall n, In n cs -> d n = 0) /\ (limit_set L -> 0 < lam_or_zero lL).
  Definition at_least (m : Z) (lC lL : option Z) : Prop :=
    (limit_set C -> m <= lam_or_zero lC \/ forall n, In n cs -> d n = 0) /\ (limit_set L -> m <= lam_or_zero lL).
  Lemma lam_double l : lam_or_zero (double l) = 2 * lam_or_zero l.
  Proof using. clear. destruct l; cbn [double option_map lam_or_zero]; lia. Qed.
  Lemma ends_rising n : forall m rs s, (Z.to_nat (HB + 1 - m) <= n)%nat -> 0 < m -> at_least m (lr_lC s) (lr_lL s) -> good_state s rs -> ends s.
  Proof using All.
    induction n as [n IH] using lt_wf_ind. intros m rs s Hn Hm (HC & HL) Hg.
    destruct (Z.ltb_spec HB m) as [Hh|Hh].
    - refine (ends_top ceps seps D d C L K inf max_incs cs HsE HcE HK HD DN D0 dN zero_within po (lr_lC s) (lr_lL s) _ _ rs s (le_n _) eq_refl eq_refl Hg).
      intros rs' G1 G2 G3 G4 G5 G6. refine (high_feasible (lam_or_zero (lr_lC s)) (lam_or_zero (lr_lL s)) rs' _ _ G1 G2 G3 G4 G5 G6); [intros G; destruct (HC G); [left; lia|now right]|intros G; specialize (HL G); lia].
    - refine (ends_level ceps seps D d C L K inf max_incs cs HsE HcE HK HD DN D0 dN zero_within po (lr_lC s) (lr_lL s) _ _ rs s (le_n _) eq_refl eq_refl Hg).
      intros s' rs' Hg' EC' EL' _. apply (IH (Z.to_nat (HB + 1 - 2 * m))) with (m := 2 * m) (rs := rs'); [lia|lia|lia| |exact Hg'].
      rewrite EC', EL'. unfold at_least. rewrite !lam_double. split; [intros G; destruct (HC G); [left; lia|now right]|intros G; specialize (HL G); lia].
  Qed.
  Lemma ends_metric rs s : positive (lr_lC s) (lr_lL s) -> good_state s rs -> ends s.
  Proof using All.
    intros (HC & HL) Hg. eapply (ends_rising _ 1 rs s (le_n _)); [lia| |exact Hg]. split; [intros G; destruct (HC G); [left; lia|now right]|intros G; specialize (HL G); lia].
  Qed.
End Metric.

Lemma lr_metric ceps seps N D d C L K lC lL inf postopt max_incs rs0 :
    (2 <= N)%nat -> 0 <= ceps -> 0 <= seps -> 0 < K -> (forall x, lC = Some x -> 0 <= x) -> (forall x, lL = Some x -> 0 <= x) ->
    symmetric D -> nonneg_matrix D -> triangle D -> D 0%nat 0%nat = 0 -> (forall n, 0 <= d n) ->
    served_alone N D d C L ceps seps -> covers N rs0 ->
    (limit_set C -> (exists x, lC = Some x /\ 0 < x) \/ forall n, (1 <= n < N)%nat -> d n = 0) ->
    (limit_set L -> exists x, lL = Some x /\ 0 < x) ->
    exists fuel0 rs, serves N D d C L ceps seps rs /\ forall fuel, (fuel0 <= fuel)%nat ->
      lr3opt_init ceps seps D d C L K lC lL inf postopt max_incs (Some (encode rs0)) fuel None = Some (LrReturn (Some (encode rs))).
Proof.
  intros HN Hc Hs HK HlC HlL HD DN HT D0 dN Ha Hcov HpC HpL.
  pose proof (alone_within _ _ _ _ _ _ _ DN dN (seq_ne N HN) (alone_all _ _ _ _ _ _ _ Ha)) as Hz.
  assert (Hg : good_state (seq 1 (N - 1)) (mklr (encode rs0) lC lL 0 false) rs0).
  { split; [reflexivity|]. split; [now apply (covers_only N)|]. split; [exact Hcov|]. split; [|reflexivity].
    split; cbn [lr_lC lr_lL]; [destruct lC; cbn; [now apply HlC|lia]|destruct lL; cbn; [now apply HlL|lia]]. }
  assert (Hal : forall n, In n (seq 1 (N - 1)) -> feasible D d C L ceps seps [n]) by (apply Forall_forall, alone_all, Ha).
  destruct (ends_metric ceps seps D d C L K inf max_incs (seq 1 (N - 1)) Hs Hc HK HD DN D0 dN Hz HT Hal postopt rs0 (mklr (encode rs0) lC lL 0 false)) as (fuel0 & r & Hr); [|exact Hg|].
  - split; cbn [lr_lC lr_lL]; intros G.
    + destruct (HpC G) as [(x & -> & Hx)|H0]; [now left|right]. intros n Hn. apply in_seq in Hn. apply H0. lia.
    + destruct (HpL G) as (x & -> & Hx). exact Hx.
  - destruct (lr_result ceps seps N D d C L K lC lL inf postopt max_incs rs0 fuel0 None (LrReturn r) HN Hs HD DN dN Ha Hcov (Hr fuel0 (le_n _))) as (rs & Hsv & [E|E]); [|discriminate].
    injection E as ->. exists fuel0, rs. split; [exact Hsv|]. exact Hr.
Qed.

(** Without limits nothing is to be relaxed. *)
Lemma lr_unlimited ceps seps N D d C L K lC lL inf postopt max_incs rs0 :
    (2 <= N)%nat -> 0 <= ceps -> 0 <= seps -> 0 < K -> (forall x, lC = Some x -> 0 <= x) -> (forall x, lL = Some x -> 0 <= x) ->
    symmetric D -> nonneg_matrix D -> D 0%nat 0%nat = 0 -> (forall n, 0 <= d n) ->
    ~ limit_set C -> ~ limit_set L -> covers N rs0 ->
    exists fuel0 rs, serves N D d C L ceps seps rs /\ forall fuel, (fuel0 <= fuel)%nat ->
      lr3opt_init ceps seps D d C L K lC lL inf postopt max_incs (Some (encode rs0)) fuel None = Some (LrReturn (Some (encode rs))).
Proof.
  intros HN Hc Hs HK HlC HlL HD DN D0 dN HC HL Hcov.
  assert (Hw : forall lim eps x, ~ limit_set lim -> within lim eps x) by (intros [c|] eps x H; cbn in *; tauto).
  assert (Hall : forall r, feasible D d C L ceps seps r) by (intros r; split; now apply Hw).
  assert (Hg : good_state (seq 1 (N - 1)) (mklr (encode rs0) lC lL 0 false) rs0).
  { split; [reflexivity|]. split; [now apply (covers_only N)|]. split; [exact Hcov|]. split; [|reflexivity].
    split; cbn [lr_lC lr_lL]; [destruct lC; cbn; [now apply HlC|lia]|destruct lL; cbn; [now apply HlL|lia]]. }
  destruct (ends_top ceps seps D d C L K inf max_incs (seq 1 (N - 1)) Hs Hc HK HD DN D0 dN (conj (Hw C ceps 0 HC) (Hw L seps 0 HL)) postopt lC lL
    ltac:(intros; apply Forall_forall; intros; apply Hall) _ rs0 (mklr (encode rs0) lC lL 0 false) (le_n _) eq_refl eq_refl Hg) as (fuel0 & r & Hr).
  destruct (lr_result ceps seps N D d C L K lC lL inf postopt max_incs rs0 fuel0 None (LrReturn r) HN Hs HD DN dN ltac:(intros n _; apply Hall) Hcov (Hr fuel0 (le_n _))) as (rs & Hsv & [E|E]); [|discriminate].
  injection E as ->. exists fuel0, rs. split; [exact Hsv|]. exact Hr.
Qed.
