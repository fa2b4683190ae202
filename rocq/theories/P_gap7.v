(** * Fisher and Jaikumar: the shares of the groups, interrupts, and when the search stops *)
From Verif Require Import Spec_rfcs Spec_inter Spec_savings PyBase M_util M_psavings M_gap Spec_gap P_base P_gap P_gap2 P_gap3 P_gap4 P_gap5 P_gap6 Spec.
From Coq Require Import ZifyBool ZifyNat Lia List Permutation.
Import ListNotations.
Local Open Scope Z_scope.

(** ** Shares *)
Lemma sum_app l l' : sumZ (l ++ l') = sumZ l + sumZ l'.
Proof. induction l as [|x l IH]; cbn [app sumZ fold_right]; [reflexivity|]. change (x + sumZ (l ++ l') = x + sumZ l + sumZ l'). lia. Qed.
Lemma sum_ext (g h : nat -> Z) l : (forall n, In n l -> g n = h n) -> sumZ (map g l) = sumZ (map h l).
Proof. intros H. f_equal. apply map_ext_in. exact H. Qed.
Lemma sum_zero_all (g : nat -> Z) l : (forall n, 0 <= g n) -> sumZ (map g l) <= 0 -> forall n, In n l -> g n = 0.
Proof.
  intros Hg. assert (P : forall l, 0 <= sumZ (map g l)). { induction l0 as [|x t IH]; cbn; [lia|]. change (0 <= g x + sumZ (map g t)). specialize (Hg x). lia. }
  induction l as [|x l IH]; intros H n Hn; [easy|]. cbn [map] in H. change (g x + sumZ (map g l) <= 0) in H. pose proof (Hg x). pose proof (P l). destruct Hn as [<-|Hn]; [lia|]. apply IH; [lia|exact Hn].
Qed.
Definition one_share (target : Z) (sh : nat -> Z) (g : list nat) : Prop :=
  (forall n, 0 <= sh n) /\ (forall n, ~ In n g -> sh n = 0) /\ NoDup g /\ sumZ (map sh g) = target.
Definition cone_inv (target : Z) (w : nat -> Z) (processed : list nat) (s : Z * list nat * list (Z * list nat)) : Prop :=
  let '(cum, nodes, groups) := s in
  exists shares sh, Forall2 (one_share target) shares (map snd groups) /\ one_share cum sh nodes /\ incl nodes processed /\ 0 <= cum < target /\
    (forall n, In n processed -> sumZ (map (fun h : nat -> Z => h n) shares) + sh n = w n) /\
    forall n, ~ In n processed -> sumZ (map (fun h : nat -> Z => h n) shares) = 0.
Definition put (sh : nat -> Z) (n : nat) (x : Z) : nat -> Z := fun m => if Nat.eqb m n then x else sh m.
Lemma put_share c sh g n x : one_share c sh g -> 0 <= x -> ~ In n g -> one_share (c + x) (put sh n x) (g ++ [n]).
Proof.
  intros (H1 & H2 & H3 & H4) Hx Hn. unfold put. split; [|split; [|split]].
  - intros m. destruct (Nat.eqb m n); [exact Hx|apply H1].
  - intros m Hm. destruct (Nat.eqb_spec m n) as [->|E]; [exfalso; apply Hm; apply in_or_app; right; now left|]. apply H2. intros G. apply Hm. apply in_or_app. now left.
  - apply (Permutation_NoDup (l := n :: g)); [apply Permutation_cons_append|now constructor].
  - rewrite map_app, sum_app. cbn [map]. rewrite Nat.eqb_refl. rewrite (sum_ext _ sh); [rewrite H4; cbn; lia|]. intros m Hm. destruct (Nat.eqb_spec m n) as [->|]; [contradiction|reflexivity].
Qed.
Lemma cone_keeps eps target w processed s n : 0 < eps <= 1 -> 0 < target -> 0 <= w n <= target -> ~ In n processed -> cone_inv target w processed s ->
  cone_inv target w (processed ++ [n]) (cone_step eps target w s n).
Proof.
  intros He Ht Hw Hn. destruct s as [[cum nodes] groups]. intros (shares & sh & HF & Hs & Hincl & Hc & Hsum & Hout). unfold cone_step.
  set (wt := if w n =? 0 then 0 else Z.min (w n) (target - cum)). assert (Hwt : 0 <= wt <= w n /\ wt <= target - cum /\ (wt < w n -> cum + wt = target)).
  { unfold wt. destruct (Z.eqb_spec (w n) 0); lia. }
  assert (Hnn : ~ In n nodes) by (intros G; apply Hn, Hincl, G).
  pose proof (put_share cum sh nodes n wt Hs (proj1 (proj1 Hwt)) Hnn) as Hp. pose proof Hs as (Hs0 & Hsz & _ & _).
  assert (Hsn : sh n = 0) by (apply Hsz; exact Hnn). assert (Hn0 : sumZ (map (fun h : nat -> Z => h n) shares) = 0) by (apply Hout; exact Hn).
  assert (Hin : forall m, In m (processed ++ [n]) -> In m processed /\ m <> n \/ m = n).
  { intros m Hm. apply in_app_or in Hm. destruct Hm as [Hm|[<-|[]]]; [left; split; [exact Hm|intros ->; contradiction]|now right]. }
  destruct (Z.ltb_spec (target - (cum + wt)) eps) as [Hcl|Hcl].
  - assert (Ef : cum + wt = target) by lia. rewrite Ef in *.
    assert (HF' : Forall2 (one_share target) (shares ++ [put sh n wt]) (map snd (groups ++ [(target, nodes ++ [n])]))).
    { rewrite map_app. apply Forall2_app; [exact HF|]. constructor; [exact Hp|constructor]. }
    assert (Hsum' : forall m, sumZ (map (fun h : nat -> Z => h m) (shares ++ [put sh n wt])) = sumZ (map (fun h : nat -> Z => h m) shares) + put sh n wt m).
    { intros m. rewrite map_app, sum_app. cbn. lia. }
    destruct (Z.ltb_spec wt (w n)) as [Hr|Hr].
    + exists (shares ++ [put sh n wt]), (put (fun _ => 0) n (w n - wt)). split; [exact HF'|]. split; [|split; [|split; [|split]]].
      * replace (w n - wt) with (0 + (w n - wt)) at 1 by lia. apply (put_share 0 (fun _ => 0) [] n (w n - wt)); [repeat split; try constructor; intros; lia|lia|easy].
      * intros m [<-|[]]. apply in_or_app. right. now left.
      * lia.
      * intros m Hm. rewrite Hsum'. unfold put. destruct (Hin m Hm) as [[Hm1 Hm2]| ->].
        -- destruct (Nat.eqb_spec m n); [contradiction|]. specialize (Hsum m Hm1). lia.
        -- rewrite Nat.eqb_refl. lia.
      * intros m Hm. rewrite Hsum'. unfold put. destruct (Nat.eqb_spec m n) as [->|E]; [exfalso; apply Hm; apply in_or_app; right; now left|].
        assert (Hmp : ~ In m processed) by (intros G; apply Hm; apply in_or_app; now left). rewrite (Hout m Hmp), (Hsz m); [reflexivity|]. intros G. apply Hmp, Hincl, G.
    + exists (shares ++ [put sh n wt]), (fun _ => 0). split; [exact HF'|]. split; [|split; [|split; [|split]]].
      * repeat split; try constructor; intros; lia.
      * easy.
      * lia.
      * intros m Hm. rewrite Hsum'. unfold put. destruct (Hin m Hm) as [[Hm1 Hm2]| ->].
        -- destruct (Nat.eqb_spec m n); [contradiction|]. specialize (Hsum m Hm1). lia.
        -- rewrite Nat.eqb_refl. lia.
      * intros m Hm. rewrite Hsum'. unfold put. destruct (Nat.eqb_spec m n) as [->|E]; [exfalso; apply Hm; apply in_or_app; right; now left|].
        assert (Hmp : ~ In m processed) by (intros G; apply Hm; apply in_or_app; now left). rewrite (Hout m Hmp), (Hsz m); [reflexivity|]. intros G. apply Hmp, Hincl, G.
  - exists shares, (put sh n wt). split; [exact HF|]. split; [exact Hp|]. split; [|split; [|split]].
    + intros m Hm. apply in_app_or in Hm. apply in_or_app. destruct Hm as [Hm|Hm]; [left; now apply Hincl|now right].
    + lia.
    + intros m Hm. unfold put. destruct (Hin m Hm) as [[Hm1 Hm2]| ->].
      * destruct (Nat.eqb_spec m n); [contradiction|]. now apply Hsum.
      * rewrite Nat.eqb_refl. lia.
    + intros m Hm. apply Hout. intros G. apply Hm. apply in_or_app. now left.
Qed.
Lemma cone_all eps target w : 0 < eps <= 1 -> 0 < target -> forall order processed s, NoDup (processed ++ order) -> (forall n, In n order -> 0 <= w n <= target) ->
  cone_inv target w processed s -> cone_inv target w (processed ++ order) (fold_left (cone_step eps target w) order s).
Proof.
  intros He Ht. induction order as [|n order IH]; intros processed s Hnd Hw Hi; [now rewrite app_nil_r|]. cbn [fold_left].
  replace (processed ++ n :: order) with ((processed ++ [n]) ++ order) in * by now rewrite <- app_assoc.
  apply IH; [exact Hnd|intros m Hm; apply Hw; now right|]. apply cone_keeps; [exact He|exact Ht|apply Hw; now left| |exact Hi].
  intros G. rewrite <- app_assoc in Hnd. cbn in Hnd. apply NoDup_remove_2 in Hnd. apply Hnd. apply in_or_app. now left.
Qed.
Lemma cone_order_perm sweep t : (t < length sweep)%nat -> Permutation (cone_order sweep t) sweep.
Proof.
  intros Ht. unfold cone_order. assert (E : exists x, firstn (t + 1) sweep = firstn t sweep ++ [x]).
  { clear - Ht. revert t Ht. induction sweep as [|y l IH]; intros t Ht; cbn [length] in Ht; [lia|]. destruct t as [|t]; [exists y; reflexivity|]. destruct (IH t ltac:(lia)) as (x & E). exists x. cbn [Nat.add firstn app]. now rewrite E. }
  destruct E as (x & E). rewrite E, app_assoc, removelast_last. etransitivity; [apply Permutation_app_comm|]. now rewrite firstn_skipn.
Qed.
Lemma sum_shares (shares : list (nat -> Z)) l : sumZ (map (fun h => sumZ (map h l)) shares) = sumZ (map (fun n => sumZ (map (fun h => h n) shares)) l).
Proof.
  induction shares as [|h t IH]; cbn [map].
  - change (sumZ []) with 0. induction l as [|x l IH]; [reflexivity|]. cbn [map]. change (0 = 0 + sumZ (map (fun _ : nat => 0) l)). lia.
  - change (sumZ (map h l) + sumZ (map (fun h => sumZ (map h l)) t) = sumZ (map (fun n => h n + sumZ (map (fun h => h n) t)) l)). rewrite IH. clear.
    induction l as [|x l IH]; [reflexivity|]. cbn [map]. repeat match goal with |- context [sumZ (?a :: ?b)] => change (sumZ (a :: b)) with (a + sumZ b) end. lia.
Qed.
Lemma sum_support (sh : nat -> Z) g l : NoDup g -> NoDup l -> incl g l -> (forall n, ~ In n g -> sh n = 0) -> sumZ (map sh l) = sumZ (map sh g).
Proof.
  revert sh l. induction g as [|x g IH]; intros sh l Hg Hl Hi H0.
  - rewrite (sum_ext _ (fun _ => 0)); [|intros; now apply H0]. clear. induction l as [|y l IH]; [reflexivity|]. cbn [map]. change (0 + sumZ (map (fun _ : nat => 0) l) = 0). cbn in IH. lia.
  - assert (Hx : In x l) by (apply Hi; now left). apply in_split in Hx. destruct Hx as (a & b & ->). apply NoDup_cons_iff in Hg. destruct Hg as [Hx Hg].
    rewrite map_app, sum_app. cbn [map]. change (sumZ (map sh a) + (sh x + sumZ (map sh b)) = sh x + sumZ (map sh g)).
    assert (E : sumZ (map (put sh x 0) (a ++ b)) = sumZ (map (put sh x 0) g)).
    { apply IH; [exact Hg|apply NoDup_remove_1 in Hl; exact Hl| |].
      - intros y Hy. specialize (Hi y (or_intror Hy)). apply in_app_or in Hi. apply in_or_app. destruct Hi as [Hi|[Hi|Hi]]; [now left|subst; contradiction|now right].
      - intros y Hy. unfold put. destruct (Nat.eqb_spec y x); [reflexivity|]. apply H0. intros [G|G]; [congruence|contradiction]. }
    rewrite (sum_ext _ sh g), (sum_ext _ sh (a ++ b)) in E.
    + rewrite map_app, sum_app in E. lia.
    + intros y Hy. unfold put. apply NoDup_remove_2 in Hl. destruct (Nat.eqb_spec y x) as [->|]; [contradiction|reflexivity].
    + intros y Hy. unfold put. destruct (Nat.eqb_spec y x) as [->|]; [contradiction|reflexivity].
Qed.
Lemma sum_const (shares : list (nat -> Z)) (gs : list (list nat)) target (l : list nat) : NoDup l -> Forall2 (one_share target) shares gs -> (forall g, In g gs -> incl g l) ->
  sumZ (map (fun h => sumZ (map h l)) shares) = Z.of_nat (length gs) * target.
Proof.
  intros Hl HF. induction HF as [|h g hs gs (H1 & H2 & H3 & H4) HF IH]; intros Hi; [reflexivity|]. cbn [map length].
  change (sumZ (map h l) + sumZ (map (fun h => sumZ (map h l)) hs) = Z.of_nat (S (length gs)) * target). rewrite IH by (intros g' Hg'; apply Hi; now right).
  rewrite (sum_support h g l H3 Hl (Hi g (or_introl eq_refl)) H2), H4. lia.
Qed.
Lemma cone_incl eps target w o : forall p s0, (forall g, In g (map snd (snd s0)) -> incl g (p ++ o)) -> incl (snd (fst s0)) (p ++ o) ->
  forall g, In g (map snd (snd (fold_left (cone_step eps target w) o s0))) -> incl g (p ++ o).
Proof.
  induction o as [|n o IH]; intros p s0 H1 H2; [exact H1|]. cbn [fold_left].
  replace (p ++ n :: o) with ((p ++ [n]) ++ o) in * by now rewrite <- app_assoc. apply IH; destruct s0 as [[cum nodes] groups]; unfold cone_step; cbn [fst snd] in *;
    set (wt := if w n =? 0 then 0 else Z.min (w n) (target - cum)); clearbody wt; assert (Hn : In n ((p ++ [n]) ++ o)) by (apply in_or_app; left; apply in_or_app; right; now left);
    destruct (target - (cum + wt) <? eps); try destruct (wt <? w n); cbn [fst snd]; try assumption;
    try (intros g Hg; rewrite map_app in Hg; apply in_app_or in Hg; destruct Hg as [Hg|[<-|[]]]; [now apply H1|]; cbn [snd]; apply incl_app; [exact H2|intros x [<-|[]]; exact Hn]).
  - intros x [<-|[]]. exact Hn.
  - easy.
  - apply incl_app; [exact H2|intros x [<-|[]]; exact Hn].
  - apply incl_app; [exact H2|intros x [<-|[]]; exact Hn].
Qed.
Lemma groups_shared eps d K sweep t : (1 <= K)%nat -> 0 < eps <= 1 -> NoDup sweep -> (forall n, 0 <= d n) -> 0 < demand d sweep -> (t < length sweep)%nat ->
  (forall n, In n sweep -> Z.of_nat K * d n <= demand d sweep) ->
  shared_out (fun n => Z.of_nat K * d n) (demand d sweep) sweep (map snd (cone_groups eps d K (demand d sweep) (cone_order sweep t))).
Proof.
  intros HK He Hnd Hd Hpos Ht Hall. destruct (groups_K eps d K sweep t HK He Hd Hpos Ht Hall) as (HlK & _ & _).
  pose proof (cone_order_perm sweep t Ht) as Hperm. set (order := cone_order sweep t) in *. set (target := demand d sweep) in *. set (w := fun n => Z.of_nat K * d n).
  assert (Hndo : NoDup order) by (apply (Permutation_NoDup (Permutation_sym Hperm)); exact Hnd).
  assert (Hw : forall n, In n order -> 0 <= w n <= target).
  { intros n Hn. unfold w. specialize (Hd n). split; [nia|]. apply Hall. apply (Permutation_in _ Hperm), Hn. }
  pose proof (cone_all eps target w He Hpos order [] (0, [], []) Hndo Hw) as Hi. cbn [app] in Hi. specialize (Hi ltac:(exists [], (fun _ => 0); cbn; split; [constructor|split; [repeat split; try constructor; intros; lia|split; [easy|split; [lia|split; [easy|reflexivity]]]]])).
  pose proof (cone_incl eps target w order [] (0, [], []) ltac:(easy) ltac:(easy)) as Hinc. cbn [app] in Hinc.
  unfold cone_groups in *. fold w in HlK |- *. destruct (fold_left (cone_step eps target w) order (0, [], [])) as [[cum nodes] groups]. cbn [snd] in HlK, Hinc |- *.
  destruct Hi as (shares & sh & HF & (Hs1 & Hs2 & Hs3 & Hs4) & Hin & Hc & Hsum & Hout).
  assert (E1 : sumZ (map (fun n => sumZ (map (fun h => h n) shares)) order) = Z.of_nat K * target).
  { rewrite <- sum_shares, (sum_const shares (map snd groups) target order Hndo HF Hinc), map_length. now rewrite HlK. }
  assert (E2 : sumZ (map w order) = Z.of_nat K * target).
  { assert (P : sumZ (map w order) = Z.of_nat K * sumZ (map d order)).
    { clear. induction order as [|x l IH]; cbn [map]; [cbn; lia|]. repeat match goal with |- context [sumZ (?a :: ?b)] => change (sumZ (a :: b)) with (a + sumZ b) end. rewrite IH. change (w x) with (Z.of_nat K * d x). ring. }
    rewrite P. f_equal. unfold target, demand. apply sumZ_perm. apply Permutation_map, Hperm. }
  assert (E3 : sumZ (map (fun n => sumZ (map (fun h => h n) shares)) order) + sumZ (map sh order) = sumZ (map w order)).
  { clear - Hsum. induction order as [|x l IH]; [reflexivity|]. cbn [map]. repeat match goal with |- context [sumZ (?a :: ?b)] => lazymatch b with context [map] => change (sumZ (a :: b)) with (a + sumZ b) end end.
    rewrite <- (Hsum x (or_introl eq_refl)), <- IH by (intros n Hn; apply Hsum; now right). lia. }
  pose proof (sum_zero_all sh order Hs1 ltac:(lia)) as Hz. exists shares. split; [exact HF|]. intros n Hn.
  assert (Hno : In n order) by (apply (Permutation_in _ (Permutation_sym Hperm)), Hn). specialize (Hsum n Hno). rewrite (Hz n Hno), Z.add_0_r in Hsum. exact Hsum.
Qed.

(** ** Interrupts, and when the search stops *)
Section Stops.
Variables (eps : Z) (N : nat) (D : matrix) (d : demands) (C L : limit) (f : list nat -> list nat * Z).
Variables (seeds : nat -> nat -> option (nat -> nat -> Z)) (half_st : Z) (gurobi : nat -> gap -> bool -> gap_status).
Variables (minimize_K find_optimal_seeds use_adaptive increase_K : bool) (maxK maxKinc : nat).
Notation turn := (gap_turn eps N D d C L f seeds half_st gurobi minimize_K find_optimal_seeds use_adaptive increase_K maxK maxKinc).
Notation turns := (gap_turns eps N D d C L f seeds half_st gurobi minimize_K find_optimal_seeds use_adaptive increase_K maxK maxKinc).

Lemma turns_last n st0 : turns (S n) st0 = match turns n st0 with inl st => turn st | r => r end.
Proof.
  revert st0. induction n as [|n IH]; intros st0.
  - cbn [gap_turns]. destruct (turn st0); reflexivity.
  - change (turns (S (S n)) st0) with (match turn st0 with inl st' => turns (S n) st' | r => r end). change (turns (S n) st0) with (match turn st0 with inl st' => turns n st' | r => r end).
    destruct (turn st0) as [st'|r]; [apply IH|reflexivity].
Qed.
Lemma interrupt_comes_out n st0 st sd : turns n st0 = inl st -> seeds (g_K st + g_inc st)%nat (g_trial st) = Some sd ->
  let p := build_gap N (stacked D half_st sd) d C (g_K st + g_inc st) L (multiplier L use_adaptive (g_tries st)) in
  gurobi (g_calls st) p false = GInterrupted \/ gurobi (g_calls st) p false = GInfeasible /\ limit_set L /\ gurobi (g_calls st) p true = GInterrupted ->
  turns (S n) st0 = inr (GapInterrupted (sol_of (g_best st)) (g_found st)).
Proof.
  intros Ht Hs p Hp. rewrite turns_last, Ht. unfold gap_turn. rewrite Hs. fold p. unfold solve_gap. destruct Hp as [->|(-> & Hl & H)]; [reflexivity|].
  assert (E : is_set (gp_L p) = true). { unfold p, build_gap. cbn [gp_L]. clear - Hl. unfold limit_set in Hl. destruct L as [l|]; [|easy]. cbn in Hl. unfold is_set, truthy. destruct (Z.eqb_spec l 0); [contradiction|reflexivity]. }
  now rewrite E, H.
Qed.

Lemma close_same st sol tries inc nx st' : close_turn N minimize_K find_optimal_seeds maxK st sol tries inc nx = inl st' ->
  g_K st' = g_K st /\ (g_improved st = true -> g_improved st' = true) /\ (g_improved st' = false -> g_best st' = g_best st) \/
  g_K st' = S (g_K st) /\ g_improved st' = false.
Proof.
  unfold close_turn. cbv zeta. set (better := match sol with Some _ => _ | None => false end).
  set (best := match sol with Some s => best_step minimize_K (g_best st) s | None => g_best st end).
  assert (Hb : better = false -> best = g_best st).
  { unfold better, best. destruct sol as [[[s sf] sK]|]; [|reflexivity]. unfold best_step. intros E. destruct (g_best st) as [[[b bf] bK]|]; cbn in E |- *; first [discriminate|now rewrite E]. }
  clearbody better best. match goal with |- (if ?b then _ else _) = _ -> _ => destruct b end.
  - unfold next_K. cbn [g_best g_K g_improved g_inc g_tries g_found g_calls]. match goal with |- (if ?b then _ else _) = _ -> _ => destruct b; [discriminate|] end.
    intros E. injection E as <-. right. now split.
  - intros E. injection E as <-. left. cbn [g_best g_K g_improved]. split; [reflexivity|]. split; [intros ->; reflexivity|]. intros E. apply Hb. now apply orb_false_iff in E.
Qed.
Lemma turn_same st st' : turn st = inl st' ->
  g_K st' = g_K st /\ (g_improved st = true -> g_improved st' = true) /\ (g_improved st' = false -> g_best st' = g_best st) \/
  g_K st' = S (g_K st) /\ g_improved st' = false.
Proof.
  unfold gap_turn. destruct (seeds _ _) as [sd|]; [|discriminate]. destruct (solve_gap _ _).
  - match goal with |- context [after_attempt ?a ?b ?c ?d ?e ?f ?g ?h] => destruct (after_attempt a b c d e f g h) as [[tries inc] nx] end. apply close_same.
  - match goal with |- context [after_attempt ?a ?b ?c ?d ?e ?f ?g ?h] => destruct (after_attempt a b c d e f g h) as [[tries inc] nx] end. apply close_same.
  - destruct (after_error _ _ _ _ _ _ _ _) as [[[tries inc] nx]|]; [|discriminate]. apply close_same.
  - discriminate.
Qed.
Lemma since_K st0 : g_improved st0 = false -> forall n st, turns n st0 = inl st ->
  exists m stm, (m <= n)%nat /\ turns m st0 = inl stm /\ g_K stm = g_K st /\
    (forall m' prev, (m' < m)%nat -> turns m' st0 = inl prev -> (g_K prev < g_K st)%nat) /\ (forall m' prev, (m' <= n)%nat -> turns m' st0 = inl prev -> (g_K prev <= g_K st)%nat) /\
    (g_improved st = false -> g_best st = g_best stm).
Proof.
  intros H0. induction n as [|n IH]; intros st E.
  - injection E as <-. exists 0%nat, st0. split; [lia|]. split; [reflexivity|]. split; [reflexivity|]. split; [lia|]. split; [|reflexivity]. intros m' prev Hm E. replace m' with 0%nat in E by lia. injection E as <-. lia.
  - rewrite turns_last in E. destruct (turns n st0) as [st1|r] eqn:En; [|discriminate]. destruct (IH st1 eq_refl) as (m & stm & Hm & Hs & HK & Hlt & Hle & Hb).
    assert (Elast : turns (S n) st0 = inl st) by (rewrite turns_last, En; exact E).
    destruct (turn_same st1 st E) as [(E1 & E2 & E3)|(E1 & E2)].
    + exists m, stm. split; [lia|]. split; [exact Hs|]. split; [congruence|]. split; [intros; rewrite E1; eapply Hlt; eassumption|]. split.
      * intros m' prev Hm' Ep. destruct (Nat.eq_dec m' (S n)) as [->|Hne]; [rewrite Elast in Ep; injection Ep as <-; lia|]. rewrite E1. apply (Hle m'); [lia|exact Ep].
      * intros Ei. rewrite (E3 Ei). apply Hb. destruct (g_improved st1); [|reflexivity]. now rewrite E2 in Ei.
    + exists (S n), st. split; [lia|]. split; [exact Elast|]. split; [reflexivity|]. split; [|split; [|reflexivity]].
      * intros m' prev Hm' Ep. specialize (Hle m' prev ltac:(lia) Ep). lia.
      * intros m' prev Hm' Ep. destruct (Nat.eq_dec m' (S n)) as [->|Hne]; [rewrite Elast in Ep; injection Ep as <-; lia|]. specialize (Hle m' prev ltac:(lia) Ep). lia.
Qed.
Lemma close_stops st sol tries inc nx s found : close_turn N minimize_K find_optimal_seeds maxK st sol tries inc nx = inr (GapReturns s found) -> (g_K st < maxK)%nat ->
  s <> None /\ (minimize_K = false -> g_improved st = false /\ s = sol_of (g_best st)).
Proof.
  unfold close_turn. cbv zeta. set (better := match sol with Some _ => _ | None => false end).
  set (best := match sol with Some s => best_step minimize_K (g_best st) s | None => g_best st end).
  assert (Hb : better = false -> best = g_best st).
  { unfold better, best. destruct sol as [[[s' sf] sK]|]; [|reflexivity]. unfold best_step. intros E. destruct (g_best st) as [[[b bf] bK]|]; cbn in E |- *; first [discriminate|now rewrite E]. }
  clearbody better best. match goal with |- (if ?b then _ else _) = _ -> _ => destruct b; [|discriminate] end.
  unfold next_K. cbn [g_best g_K g_improved g_inc g_tries g_found g_calls]. intros E Hlt.
  destruct best as [b|].
  - match goal with H : (if ?b then _ else _) = _ |- _ => destruct b eqn:Es; [|discriminate] end. injection E as <- _. split; [easy|]. intros Hm. subst minimize_K. cbn [orb] in Es.
    apply orb_true_iff in Es. destruct Es as [Es|Es]; [|lia]. apply negb_true_iff, orb_false_iff in Es. destruct Es as [Es1 Es2]. split; [exact Es1|]. now rewrite <- (Hb Es2).
  - cbn [orb] in E. destruct (Nat.leb_spec maxK (g_K st)); [lia|discriminate].
Qed.
Lemma stops_after n st0 st s found : g_improved st0 = false -> turns n st0 = inl st -> turns (S n) st0 = inr (GapReturns s found) -> (g_K st < maxK)%nat ->
  s <> None /\ (minimize_K = false -> exists m stm, (m <= n)%nat /\ turns m st0 = inl stm /\ g_K stm = g_K st /\
    (forall m' prev, (m' < m)%nat -> turns m' st0 = inl prev -> (g_K prev < g_K st)%nat) /\ s = sol_of (g_best stm)).
Proof.
  intros H0 En E Hlt. rewrite turns_last, En in E.
  assert (G : s <> None /\ (minimize_K = false -> g_improved st = false /\ s = sol_of (g_best st))).
  { unfold gap_turn in E. destruct (seeds _ _) as [sd|]; [|discriminate]. destruct (solve_gap _ _).
    - match goal with H : context [after_attempt ?a ?b ?c ?d ?e ?f ?g ?h] |- _ => destruct (after_attempt a b c d e f g h) as [[tries inc] nx] end. eapply close_stops; eassumption.
    - match goal with H : context [after_attempt ?a ?b ?c ?d ?e ?f ?g ?h] |- _ => destruct (after_attempt a b c d e f g h) as [[tries inc] nx] end. eapply close_stops; eassumption.
    - destruct (after_error _ _ _ _ _ _ _ _) as [[[tries inc] nx]|]; [|discriminate]. eapply close_stops; eassumption.
    - discriminate. }
  destruct G as [G1 G2]. split; [exact G1|]. intros Hm. destruct (G2 Hm) as [Hi ->].
  destruct (since_K st0 H0 n st En) as (m & stm & Hm' & Hs & HK & Hf & _ & Hb). exists m, stm. split; [exact Hm'|]. split; [exact Hs|]. split; [exact HK|]. split; [exact Hf|]. now rewrite (Hb Hi).
Qed.
End Stops.
