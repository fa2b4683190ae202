(** Proofs about the cones around the depot, continued: which customers a
    sector has, where it ends and how far away its seed is. *)
From Coq Require Import ZArith QArith Qminmax Qround List Bool Arith Lia Lqa Permutation.
From Verif Require Import M_cones Spec_cones P_cones P_cones2.
Import ListNotations.
Open Scope Q_scope.

Definition as_tuple (g : cone) : Q * Q * Q * list (Q * nat * Q) := (phi1 g, phi2 g, weight g, nodes g).

Lemma cones_of_snoc w b p : forall l,
  cones_of w (l ++ [b]) p = cones_of w l b ++ [(snd (fst b), snd b, w (snd b) (snd p))].
Proof.
  induction l as [|a l IH]; [reflexivity|]. cbn [app cones_of]. rewrite IH. cbn [app]. f_equal.
  destruct l; reflexivity.
Qed.

Section B.
Variables (turn target eps : Q) (w : nat -> nat -> Q) (q0 : Q).
Hypotheses (Hturn : 0 < turn) (Htarget : 0 < target) (Heps : 0 < eps)
  (Hw : forall i j, 0 <= w i j) (Hlight : forall i j, w i j <= target).

Definition ray_after (l : list place) : Q := last_ray turn q0 0 (map phi_of l).

Lemma last_ray_snoc : forall l q r p,
  last_ray turn q r (map phi_of (l ++ [p]))
  == (final_phi turn q l + adjusted turn (final_phi turn q l) (phi_of p)) / 2.
Proof.
  induction l as [|a l IH]; intros q r p.
  - cbn [app map last_ray final_phi fold_left]. unfold adjusted, Qltb.
    destruct (Qle_bool q (phi_of p)); cbn [negb]; reflexivity.
  - cbn [app map last_ray]. rewrite IH. cbn [final_phi fold_left].
    replace (if Qle_bool q (phi_of a) then phi_of a else phi_of a + turn) with (adjusted turn q (phi_of a)).
    + reflexivity.
    + unfold adjusted, Qltb. destruct (Qle_bool q (phi_of a)); reflexivity.
Qed.

Lemma right_more (done : list place) (p : place) gs : sectors_right turn w q0 done gs -> sectors_right turn w q0 (done ++ [p]) gs.
Proof.
  intros H before from to wt cones after E.
  destruct (H before from to wt cones after E) as (l1 & x & ps & a & b & l2 & f & E1 & H1).
  exists l1, x, ps, a, b, (l2 ++ [p]), f. split; [|exact H1]. rewrite E1.
  rewrite <- !app_assoc. reflexivity.
Qed.

Lemma right_snoc (done : list place) gs g :
  sectors_right turn w q0 done (map as_tuple gs) ->
  (exists (earlier : list place) (first : place) (places : list place) (b : place) (later : list place) f,
      done = earlier ++ places ++ b :: later
      /\ places = first :: tl places
      /\ nodes g = cones_of w places b
      /\ ray_after (earlier ++ [first]) <= phi1 g
      /\ phi1 g <= ray_after (earlier ++ firstn 2 (places ++ [b]))
      /\ 0 <= f /\ f <= 1
      /\ phi2 g == ray_after (earlier ++ places) + f * (ray_after (earlier ++ places ++ [b]) - ray_after (earlier ++ places))
      /\ Qsum (map weight gs) + weight g
         == along w (map node_of (earlier ++ places)) + f * w (node_of (last places first)) (node_of b)) ->
  sectors_right turn w q0 done (map as_tuple (gs ++ [g])).
Proof.
  intros H (l1 & x & ps & b & l2 & f & E1 & E2 & H1 & H2 & H3 & H4 & H5 & H6 & H7) before from to wt cones after E.
  rewrite map_app in E. cbn [map] in E.
  destruct (exists_last (l := (from, to, wt, cones) :: after) ltac:(discriminate)) as (m & y & Em).
  rewrite Em, app_assoc in E. apply app_inj_tail in E. destruct E as [Eg1 Eg2].
  destruct m as [|g' m].
  - cbn [app] in Em. injection Em as Ey Ea. subst after. rewrite app_nil_r in Eg1.
    rewrite <- Ey in Eg2. unfold as_tuple in Eg2. injection Eg2 as <- <- <- <-. subst before.
    exists l1, x, ps, (last ps x), b, l2, f. repeat (split; [assumption|]).
    split; [reflexivity|]. repeat (split; [assumption|]).
    replace (map (fun g0 => snd (fst g0)) (map as_tuple gs)) with (map weight gs); [exact H7|].
    rewrite map_map. reflexivity.
  - cbn [app] in Em. injection Em as E3 E4. apply (H before from to wt cones m). rewrite Eg1, <- E3. reflexivity.
Qed.

Definition starts (l0 seg : list place) (a : place) (r : Q) : Prop :=
  match seg with
  | [] => r == ray_after (l0 ++ [a])
  | s :: _ => ray_after (l0 ++ [s]) <= r /\ r <= ray_after (l0 ++ firstn 2 (seg ++ [a]))
  end.

Definition inv (done : list place) (s : cone_state) : Prop :=
  0 <= cum s /\ cum s < target /\ prev_phi s = final_phi turn q0 done /\
  weighed s == along w (map node_of done) /\ sectors_right turn w q0 done (map as_tuple (groups s)) /\
  exists l0 seg a r, done = l0 ++ seg ++ [a] /\ prev s = Some (node_of a, snd (fst a), r)
    /\ r == ray_after done /\ r <= prev_phi s
    /\ members s = cones_of w seg a /\ starts l0 seg a (start_ray s).

Lemma inv_step done s p : inv done s -> prev_phi s <= phi_of p + turn -> even_groups target (groups s) ->
  inv (done ++ [p]) (cone_step turn target eps w s p).
Proof.
  intros (H1 & H2 & H3 & H4 & H5 & l0 & seg & a & r & E & Ep & Er & Hr & Em & Hst) Hp He.
  destruct (step_weighed turn target eps w Htarget Heps Hw s p H1) as [W1 W2].
  destruct (step_light turn target eps w Htarget Heps Hw Hlight s p H2 He) as [L1 _].
  pose proof (step_phi turn target eps w s p) as Hphi.
  pose proof (step_ray turn target eps w Hturn s p Hp) as Hray.
  pose proof (adjusted_ge turn _ _ Hp) as Ha.
  assert (Hnew : ray_after (done ++ [p]) == prev_phi s + (adjusted turn (prev_phi s) (phi_of p) - prev_phi s) * (1 # 2)).
  { unfold ray_after. rewrite last_ray_snoc, <- H3. field. }
  assert (Hge : r <= ray_after (done ++ [p])) by lra.
  split; [exact W2|]. split; [exact L1|].
  split; [rewrite Hphi, H3; unfold final_phi; rewrite fold_left_app; reflexivity|].
  split.
  { rewrite W1, H4. unfold prev_node. rewrite Ep. rewrite E, !map_app. cbn [map].
    rewrite <- !app_assoc. cbn [app]. rewrite !(app_assoc (map node_of l0)), (along_app w (map node_of l0 ++ map node_of seg) (node_of a) [node_of p]). reflexivity. }
  assert (Hnext : exists x, seg ++ [a] = x :: tl (seg ++ [a]) /\
            ray_after (l0 ++ [x]) <= start_ray s /\ start_ray s <= ray_after (l0 ++ firstn 2 ((seg ++ [a]) ++ [p]))).
  { destruct seg as [|y seg].
    - exists a. split; [reflexivity|]. cbn [starts] in Hst. cbn [app firstn].
      cbn [app] in E. rewrite E, <- app_assoc in Hge. cbn [app] in Hge. rewrite E in Er. lra.
    - exists y. split; [reflexivity|]. cbn [starts] in Hst. destruct Hst as [S1 S2]. split; [exact S1|].
      replace (firstn 2 (((y :: seg) ++ [a]) ++ [p])) with (firstn 2 ((y :: seg) ++ [a])); [exact S2|].
      destruct seg; reflexivity. }
  destruct Hnext as (x & Ex & Hx1 & Hx2).
  assert (Hlast : last (seg ++ [a]) x = a) by apply last_last.
  assert (Hcones : members s ++ [(snd (fst a), node_of a, w (node_of a) (node_of p))] = cones_of w (seg ++ [a]) p).
  { rewrite Em, cones_of_snoc. reflexivity. }
  assert (Edone : done ++ [p] = l0 ++ (seg ++ [a]) ++ p :: []) by (rewrite E, <- !app_assoc; reflexivity).
  assert (Hold : sectors_right turn w q0 (done ++ [p]) (map as_tuple (groups s))) by (apply right_more; exact H5).
  assert (Hstep : exists ray, ray == ray_after (done ++ [p]) /\ ray <= prev_phi (cone_step turn target eps w s p) /\
     let wt := w (node_of a) (node_of p) in let f := fraction_of target (cum s) wt in
     let end_ray := bisect_angle turn r ray f in
     cone_step turn target eps w s p =
      if Qltb (target - (cum s + f * wt)) eps
      then CS (groups s ++ [Cone (start_ray s) end_ray (cum s + f * wt) (cones_of w (seg ++ [a]) p)]) end_ray
             (if Qltb f 1 then (1 - f) * wt else 0)
             (if Qltb f 1 then [(snd (fst a), node_of a, wt)] else [])
             (Some (node_of p, snd (fst p), ray)) (prev_phi (cone_step turn target eps w s p))
      else CS (groups s) (start_ray s) (cum s + f * wt) (cones_of w (seg ++ [a]) p)
             (Some (node_of p, snd (fst p), ray)) (prev_phi (cone_step turn target eps w s p))).
  { rewrite <- Hcones. rewrite Hphi. unfold cone_step. destruct p as [[phi prho] i]. rewrite Ep.
    unfold phi_of in *. cbn [fst snd] in *.
    fold (adjusted turn (prev_phi s) phi).
    set (q := adjusted turn (prev_phi s) phi) in *.
    assert (Hb : bisect_angle turn (prev_phi s) q (1 # 2) == prev_phi s + (q - prev_phi s) * (1 # 2))
      by (apply bisect_le; [exact Hturn|exact Ha]).
    exists (bisect_angle turn (prev_phi s) q (1 # 2)).
    split; [rewrite Hb, Hnew; reflexivity|]. split; [rewrite Hb; lra|]. reflexivity. }
  destruct Hstep as (ray & Hr1 & Hr2 & Hstep).
  cbv zeta in Hstep. set (wt := w (node_of a) (node_of p)) in *. set (f := fraction_of target (cum s) wt) in *.
  pose proof (fraction_nonneg target (cum s) wt (Hw _ _) ltac:(lra)) as Hf0.
  pose proof (fraction_le1 target (cum s) wt) as Hf1. fold f in Hf0, Hf1.
  assert (Hend : bisect_angle turn r ray f == r + (ray - r) * f) by (apply bisect_le; [exact Hturn|lra]).
  assert (Hend1 : r <= bisect_angle turn r ray f).
  { rewrite Hend. assert (0 <= (ray - r) * f) by (apply Qmult_le_0_compat; lra). lra. }
  assert (Hend2 : bisect_angle turn r ray f <= ray).
  { rewrite Hend. assert (0 <= (ray - r) * (1 - f)) by (apply Qmult_le_0_compat; lra). lra. }
  set (end_ray := bisect_angle turn r ray f) in *.
  assert (Edone2 : l0 ++ (seg ++ [a]) ++ [p] = done ++ [p]) by (symmetry; exact Edone).
  split.
  - rewrite Hstep. destruct (Qltb (target - (cum s + f * wt)) eps); cbn [groups]; [|exact Hold].
    apply right_snoc; [exact Hold|].
    exists l0, x, (seg ++ [a]), p, [], f. cbn [nodes phi1 phi2 weight].
    split; [exact Edone|]. split; [exact Ex|]. split; [reflexivity|]. split; [exact Hx1|]. split; [exact Hx2|].
    split; [exact Hf0|]. split; [exact Hf1|].
    match goal with |- context [last ?u ?v] => replace (last u v) with a by (symmetry; exact Hlast) end. fold wt.
    rewrite <- E. split.
    + rewrite Edone2. rewrite Hend, <- Hr1, <- Er. ring.
    + rewrite <- H4. unfold weighed. ring.
  - destruct (Qltb (target - (cum s + f * wt)) eps) eqn:Eb.
    + destruct (Qltb f 1) eqn:Ef.
      * exists (l0 ++ seg), [a], p, ray. rewrite Hstep. cbn [prev members start_ray prev_phi].
        split; [rewrite Edone, <- !app_assoc; reflexivity|]. split; [reflexivity|].
        split; [exact Hr1|]. split; [exact Hr2|]. split; [reflexivity|].
        cbn [starts firstn app]. rewrite <- !app_assoc. cbn [app]. rewrite <- E.
        split; [rewrite <- Er; exact Hend1|].
        replace (l0 ++ seg ++ [a; p]) with (done ++ [p]) by (rewrite E, <- !app_assoc; reflexivity).
        rewrite <- Hr1. exact Hend2.
      * exists done, [], p, ray. rewrite Hstep. cbn [prev members start_ray prev_phi].
        split; [reflexivity|]. split; [reflexivity|]. split; [exact Hr1|]. split; [exact Hr2|]. split; [reflexivity|].
        cbn [starts]. apply Qltb_false in Ef.
        assert (f == 1) by lra. rewrite Hend. rewrite H. rewrite <- Hr1. ring.
    + exists l0, (seg ++ [a]), p, ray. rewrite Hstep. cbn [prev members start_ray prev_phi].
      split; [exact Edone|]. split; [reflexivity|]. split; [exact Hr1|]. split; [exact Hr2|]. split; [reflexivity|].
      unfold starts. destruct (seg ++ [a]) as [|x' t]; [discriminate|]. injection Ex as ->. split; [exact Hx1|exact Hx2].
Qed.

Lemma inv_fold : forall l done s, inv done s -> even_groups target (groups s) ->
  forward turn (prev_phi s) l -> inv (done ++ l) (fold_left (cone_step turn target eps w) l s).
Proof.
  induction l as [|p l IH]; intros done s Hi He Hf.
  - rewrite app_nil_r. exact Hi.
  - cbn [fold_left forward] in *. destruct Hf as [Hf1 Hf2].
    replace (done ++ p :: l) with ((done ++ [p]) ++ l) by (rewrite <- app_assoc; reflexivity).
    apply IH.
    + apply inv_step; assumption.
    + apply (step_light turn target eps w Htarget Heps Hw Hlight s p); [apply Hi|exact He].
    + rewrite step_phi. exact Hf2.
Qed.
End B.

Lemma sectors_end turn target eps w sweep trial :
  0 < turn -> 0 < target -> 0 < eps -> (forall i j, 0 <= w i j) -> (forall i j, w i j <= target) ->
  (trial < length sweep)%nat -> within_a_turn turn (map phi_of sweep) ->
  sectors_right turn w (first_prev_phi turn sweep trial) (circle_view sweep trial)
    (map as_tuple (groups (cone_groups turn target eps w sweep trial))).
Proof.
  intros Hturn Htarget Heps Hw Hlight Htr Hang.
  destruct (view_split sweep trial Htr) as (x & rest & E & Ev).
  destruct (view_forward turn sweep trial x rest Hturn Htr Hang E) as (Hq & Hf & Hfin).
  unfold cone_groups. rewrite Ev.
  set (q := first_prev_phi turn sweep trial) in *.
  set (l := (rest ++ firstn trial sweep) ++ [x]) in *.
  assert (Ea : adjusted turn q (phi_of x) = phi_of x).
  { unfold adjusted. assert (X : Qltb (phi_of x) q = false) by (apply Qltb_false; exact Hq). rewrite X. reflexivity. }
  set (ray1 := bisect_angle turn q (phi_of x) (1 # 2)).
  assert (Hr1 : ray1 == q + (phi_of x - q) * (1 # 2)) by (apply bisect_le; assumption).
  assert (Es1 : cone_step turn target eps w (CS [] 0 0 [] None q) x
                = CS [] ray1 0 [] (Some (node_of x, snd (fst x), ray1)) (phi_of x)).
  { unfold cone_step. destruct x as [[phi rho] i]. cbn [prev prev_phi groups cum members].
    unfold phi_of in Ea. cbn [fst] in Ea. unfold adjusted in Ea. rewrite Ea. reflexivity. }
  assert (Hra : ray1 == ray_after turn q [x]).
  { unfold ray_after. change [x] with ([] ++ [x]). rewrite last_ray_snoc.
    cbn [final_phi fold_left]. rewrite Ea, Hr1. field. }
  cbn [fold_left]. rewrite Es1.
  change (x :: l) with ([x] ++ l).
  apply (inv_fold turn target eps w q Hturn Htarget Heps Hw Hlight l [x]).
  - split; [cbn; lra|]. split; [cbn; lra|].
    split; [cbn [prev_phi final_phi fold_left]; symmetry; exact Ea|].
    split; [unfold weighed; cbn; lra|].
    split; [intros before from to wt cones after Eg; cbn in Eg; destruct before; discriminate|].
    exists [], [], x, ray1. split; [reflexivity|]. split; [reflexivity|]. cbn [prev_phi members start_ray].
    split; [exact Hra|]. split; [lra|]. split; [reflexivity|]. cbn [starts app]. exact Hra.
  - constructor.
  - exact Hf.
Qed.

(** *** The distance of a seed *)
Lemma grow_arc_spec wtarget : forall l seed grow, grow <= wtarget ->
  (forall m, In m l -> 0 <= snd m) ->
  wtarget < grow + Qsum (map snd l) ->
  exists near m far f, l = near ++ m :: far /\ 0 <= f /\ f <= 1
    /\ grow + Qsum (map snd near) + f * snd m == wtarget
    /\ grow_arc wtarget seed grow l
       == last (map rho_of near) seed + f * (rho_of m - last (map rho_of near) seed).
Proof.
  induction l as [|[[cr i] cwt] l IH]; intros seed grow Hg Hm Hlt.
  - cbn in Hlt. lra.
  - cbn [map snd] in Hlt. change (Qsum (cwt :: map snd l)) with (cwt + Qsum (map snd l)) in Hlt.
    pose proof (Hm _ (or_introl eq_refl)) as Hc. cbn [snd] in Hc.
    cbn [grow_arc]. destruct (Qltb wtarget (grow + cwt)) eqn:E.
    + apply Qltb_true in E. assert (Hpos : 0 < cwt) by lra.
      assert (Hfe : ((wtarget - grow) / cwt) * cwt == wtarget - grow) by (field; lra).
      exists [], (cr, i, cwt), l, ((wtarget - grow) / cwt).
      split; [reflexivity|].
      split. { apply Qle_shift_div_l; lra. }
      split. { apply Qle_shift_div_r; lra. }
      split. { cbn [map snd]. change (Qsum []) with 0. lra. }
      cbn [map last]. reflexivity.
    + apply Qltb_false in E.
      destruct (IH cr (grow + cwt)) as (near & m & far & f & E1 & F0 & F1 & F2 & F3); [exact E| |lra|].
      { intros m Hin. apply Hm. right. exact Hin. }
      exists ((cr, i, cwt) :: near), m, far, f.
      split; [rewrite E1; reflexivity|]. split; [exact F0|]. split; [exact F1|].
      split.
      { cbn [map snd]. change (Qsum (cwt :: map snd near)) with (cwt + Qsum (map snd near)). lra. }
      assert (El : last (map rho_of ((cr, i, cwt) :: near)) seed = last (map rho_of near) cr).
      { cbn [map]. change (rho_of (cr, i, cwt)) with cr. clear. revert cr.
        induction (map rho_of near) as [|y t IHt]; intros cr; [reflexivity|].
        change (last (cr :: y :: t) seed) with (last (y :: t) seed). rewrite IHt. symmetry.
        destruct t as [|z t]; [reflexivity|].
        change (last (y :: z :: t) cr) with (last (z :: t) cr).
        clear. revert z. induction t as [|u t IHt]; intros z; [reflexivity|].
        change (last (z :: u :: t) cr) with (last (u :: t) cr). change (last (z :: u :: t) y) with (last (u :: t) y). apply IHt. }
      rewrite El. exact F3.
Qed.

Lemma Qsum_perm l l' : Permutation l l' -> Qsum l == Qsum l'.
Proof.
  induction 1; cbn [Qsum fold_right]; [reflexivity| | |].
  - change (fold_right Qplus 0 l) with (Qsum l). change (fold_right Qplus 0 l') with (Qsum l'). rewrite IHPermutation. reflexivity.
  - ring.
  - rewrite IHPermutation1. exact IHPermutation2.
Qed.

(** the cones of a sector weigh at least as much as the sector *)
Definition heavy (s : cone_state) : Prop :=
  cum s <= Qsum (map snd (members s)) /\ Forall (fun g => weight g <= Qsum (map snd (nodes g))) (groups s).

Lemma step_heavy turn target eps w s p : (forall i j, 0 <= w i j) ->
  0 <= cum s -> cum s < target -> heavy s -> heavy (cone_step turn target eps w s p).
Proof.
  intros Hw Hc Hct (H1 & H2). destruct p as [[phi rho] i]. unfold cone_step, heavy.
  destruct (prev s) as [[[pi prho] pray]|]; cbn [members groups cum]; [|auto].
  fold (fraction_of target (cum s) (w pi i)).
  destruct (fraction_weight target (cum s) (w pi i) (Hw _ _)) as [[A1 A2]|[(A1 & A2 & A3)|(A1 & A2 & A3 & A4)]].
  - assert (Hs : cum s + fraction_of target (cum s) (w pi i) * w pi i <= Qsum (map snd (members s ++ [(prho, pi, w pi i)]))).
    { rewrite map_app, Qsum_app. cbn [map snd]. change (Qsum [w pi i]) with (w pi i + 0). rewrite A2. lra. }
    destruct (Qltb _ eps); cbn [members groups cum]; [|auto].
    split; [|apply Forall_app; split; [exact H2|constructor; [exact Hs|constructor]]].
    destruct (Qltb _ 1) eqn:E; cbn; [apply Qltb_true in E|]; lra.
  - assert (Hs : cum s + fraction_of target (cum s) (w pi i) * w pi i <= Qsum (map snd (members s ++ [(prho, pi, w pi i)]))).
    { rewrite map_app, Qsum_app. cbn [map snd]. change (Qsum [w pi i]) with (w pi i + 0). rewrite A2. lra. }
    destruct (Qltb _ eps); cbn [members groups cum]; [|auto].
    split; [|apply Forall_app; split; [exact H2|constructor; [exact Hs|constructor]]].
    destruct (Qltb _ 1) eqn:E; cbn; [apply Qltb_true in E|]; lra.
  - assert (Hs : cum s + fraction_of target (cum s) (w pi i) * w pi i <= Qsum (map snd (members s ++ [(prho, pi, w pi i)]))).
    { rewrite map_app, Qsum_app. cbn [map snd]. change (Qsum [w pi i]) with (w pi i + 0). lra. }
    destruct (Qltb _ eps) eqn:Eb; cbn [members groups cum]; [|auto].
    split; [|apply Forall_app; split; [exact H2|constructor; [exact Hs|constructor]]].
    destruct (Qltb _ 1) eqn:E; cbn [map snd]; [|change (Qsum []) with 0; lra].
    change (Qsum [w pi i]) with (w pi i + 0).
    assert ((1 - fraction_of target (cum s) (w pi i)) * w pi i == w pi i - (target - cum s)) by (rewrite <- A4; ring).
    lra.
Qed.

Lemma final_heavy turn target eps w sweep trial :
  0 < target -> 0 < eps -> (forall i j, 0 <= w i j) -> (forall i j, w i j <= target) ->
  heavy (cone_groups turn target eps w sweep trial).
Proof.
  intros Ht He Hw Hl. unfold cone_groups.
  assert (H : heavy (CS [] 0 0 [] None (first_prev_phi turn sweep trial))) by (split; [cbn; lra|constructor]).
  assert (H1 : even_groups target (groups (CS [] 0 0 [] None (first_prev_phi turn sweep trial)))) by constructor.
  assert (H2 : 0 <= cum (CS [] 0 0 [] None (first_prev_phi turn sweep trial))) by (cbn; lra).
  assert (H3 : cum (CS [] 0 0 [] None (first_prev_phi turn sweep trial)) < target) by (cbn; lra).
  revert H H1 H2 H3. generalize (CS [] 0 0 [] None (first_prev_phi turn sweep trial)).
  induction (circle_view sweep trial) as [|p l IH]; intros s H H1 H2 H3; [exact H|].
  cbn [fold_left]. destruct (step_light turn target eps w Ht He Hw Hl s p H3 H1) as [L1 L2].
  apply IH; [apply step_heavy; assumption|exact L2| |exact L1].
  apply (step_weighed turn target eps w Ht He Hw s p H2).
Qed.

Lemma seed_quantile turn target eps w sweep trial g :
  0 < target -> 0 < eps -> 4 * eps <= target -> (forall i j, 0 <= w i j) -> (forall i j, w i j <= target) ->
  In g (groups (cone_groups turn target eps w sweep trial)) ->
  exists near m far f, Permutation (near ++ m :: far) (nodes g)
    /\ ascending (map rho_of (near ++ m :: far)) /\ 0 <= f /\ f <= 1
    /\ Qsum (map snd near) + f * snd m == (3 # 4) * target
    /\ fst (cone_seed turn target g) == last (map rho_of near) 0 + f * (rho_of m - last (map rho_of near) 0).
Proof.
  intros Ht He Hs Hw Hl Hg.
  destruct (final_heavy turn target eps w sweep trial Ht He Hw Hl) as [_ Hh]. rewrite Forall_forall in Hh.
  pose proof (Hh g Hg) as Hwt. cbn beta in Hwt.
  pose proof (final_full turn target eps w sweep trial) as Hf.
  unfold full_groups in Hf. rewrite Forall_forall in Hf. pose proof (Hf g Hg) as Hfg. cbn beta in Hfg.
  pose proof (final_members turn target eps w sweep trial Hw) as (_ & Hm & _).
  rewrite Forall_forall in Hm. destruct (Hm g Hg) as [Hne Hmo]. rewrite Forall_forall in Hmo.
  pose proof (sort_nodes_perm (nodes g)) as HP.
  destruct (grow_arc_spec ((3 # 4) * target) (sort_nodes (nodes g)) 0 0) as (near & m & far & f & E & F0 & F1 & F2 & F3).
  - lra.
  - intros m Hin. apply (Hmo m). apply (Permutation_in _ HP). exact Hin.
  - rewrite (Qsum_perm _ _ (Permutation_map snd HP)). lra.
  - exists near, m, far, f. rewrite <- E. split; [exact HP|]. split; [apply sort_nodes_asc|].
    split; [exact F0|]. split; [exact F1|]. split; [lra|]. exact F3.
Qed.

Lemma equal_cones_full turn eps total w sweep K trial :
  0 < turn -> 0 < eps -> (forall i j, 0 <= w i j) -> (1 <= K)%nat -> (trial < length sweep)%nat ->
  within_a_turn turn (map phi_of sweep) -> (forall p, In p sweep -> 0 <= snd (fst p)) ->
  total == around w (map node_of sweep) ->
  let share := total / inject_Z (Z.of_nat K) in
  (forall i j, w i j <= share) ->
  (inject_Z (Z.of_nat K) + 1) * eps < share ->
  exists gs first,
    sweep_seed_points turn eps total w sweep K trial
      = Cone_seeds (map (fun g => Some (cone_seed turn share g)) gs)
    /\ length gs = K
    /\ (forall g, In g gs -> share - eps < weight g /\ weight g <= share)
    /\ consecutive first (map sector gs)
    /\ (forall g, In g gs -> first <= phi1 g /\ phi1 g <= phi2 g /\ phi2 g <= first + turn)
    /\ sectors_right turn w (angle_before turn (map phi_of sweep) trial)
         (skipn trial sweep ++ firstn (trial + 1) sweep) (map as_tuple gs)
    /\ (forall g, In g gs ->
          snd (cone_seed turn share g) == (phi1 g + phi2 g) / 2 /\
          0 <= fst (cone_seed turn share g) /\
          (exists rho i wt phi, In (rho, i, wt) (nodes g) /\ In (phi, rho, i) sweep
            /\ fst (cone_seed turn share g) <= rho) /\
          (4 * eps <= share -> reached_at ((3 # 4) * share) (nodes g) (fst (cone_seed turn share g)))).
Proof.
  intros Hturn Heps Hw HK Htr Hang Hrho Htot share Hlight Hsmall.
  destruct (equal_cones turn eps total w sweep K trial Hturn Heps Hw HK Htr Hang Hrho Htot Hlight Hsmall)
    as (gs & first & E & E1 & E2 & E3 & E4 & E5 & E6).
  assert (Htarget : 0 < share).
  { pose proof (KQ_pos K HK) as HKp.
    assert (0 <= inject_Z (Z.of_nat K) * eps) by (apply Qmult_le_0_compat; apply Qlt_le_weak; assumption).
    revert Hsmall H. generalize (inject_Z (Z.of_nat K)). intros. lra. }
  exists gs, first. repeat (split; [assumption|]). split.
  - rewrite E. fold share.
    replace (angle_before turn (map phi_of sweep) trial) with (first_prev_phi turn sweep trial).
    + apply sectors_end; assumption.
    + rewrite (first_prev_spec turn sweep trial Htr). unfold angle_before. destruct trial; [reflexivity|].
      rewrite firstn_map. reflexivity.
  - intros g Hg. destruct (E6 g Hg) as (S1 & S2 & S3 & S4). fold share in S1, S2, S3, S4.
    split; [|split; [exact S3|]].
    { unfold cone_seed. cbn [snd]. rewrite bisect_le; [field|exact Hturn|apply (E5 g Hg)]. }
    split; [exact S4|].
    intros H4. rewrite E in Hg. fold share in Hg.
    exact (seed_quantile turn share eps w sweep trial g Htarget Heps H4 Hw Hlight Hg).
Qed.
