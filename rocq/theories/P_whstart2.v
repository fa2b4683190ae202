(** * Proofs about where the sweeps of Wren and Holliday's heuristic start, continued *)
From Coq Require Import ZifyBool Lia.
From Verif Require Import Spec Spec_savings PyBase P_base M_util M_sweep M_polar Spec_polar P_polar M_whstart Spec_whstart P_whstart.
From Verif Require Import M_wh Spec_wh P_wh8 P_wh9.

Lemma Forall2_flat {A B X} (R : A -> B -> Prop) (f : X -> list A) (g : X -> list B) l :
  (forall x, In x l -> Forall2 R (f x) (g x)) -> Forall2 R (flat_map f l) (flat_map g l).
Proof.
  induction l as [|x l IH]; intros H; [constructor|]. cbn [flat_map]. apply Forall2_app; [apply H; now left|].
  apply IH. intros y Hy. apply H. now right.
Qed.
Lemma Forall2_map_same {A B X} (R : A -> B -> Prop) (f : X -> A) (g : X -> B) l :
  (forall x, In x l -> R (f x) (g x)) -> Forall2 R (map f l) (map g l).
Proof. induction l as [|x l IH]; intros H; [constructor|]. cbn [map]. constructor; [apply H; now left|]. apply IH. intros y Hy. apply H. now right. Qed.

Section S.
Variable argsort : list fraction -> list nat.
Hypothesis Hsort : sorts argsort.
Variables (pts : list (list Z)) (d : option (list Z)).
Hypothesis (HN : (2 <= length pts)%nat) (Hp : planar pts)
  (Hd : match d with Some ds => length ds = length pts | None => True end).

Lemma one_ray phis rho order ccw i : get_sweep_from_cartesian_coordinates argsort pts = Some (phis, rho, order) -> (i < 4)%nat ->
  from_ray pts (weight_of d) order (ccw, i) (ccw, start_node (length pts) phis ccw (angle_tgt (sum_of_places pts d) i)).
Proof.
  intros E Hi. pose proof (angle_ray pts d i Hd Hi) as Ha.
  destruct (starts_right argsort Hsort pts phis rho order _ _ HN Hp E Ha) as (H1 & H2 & H3 & H4).
  unfold from_ray. cbn [fst snd]. split; [reflexivity|]. destruct ccw; auto.
Qed.

Lemma rays dir : exists rho order, read_coordinates argsort pts = Some (rho, order) /\ Permutation order (seq 1 (length pts - 1)) /\
  (exists s, wh_sweeps argsort pts d BestOfFour dir = Some s /\
     Forall2 (from_ray pts (weight_of d) order) (flat_map (fun ccw => map (pair ccw) (seq 0 4)) (dirs dir)) s) /\
  (exists s, wh_sweeps argsort pts d LeastDense dir = Some s /\
     Forall2 (from_ray pts (weight_of d) order) (map (fun ccw => (ccw, 0%nat)) (dirs dir)) s) /\
  wh_sweeps argsort pts d BestAlternative dir = Some (flat_map (fun ccw => map (pair ccw) (seq 0 (length pts - 1))) (dirs dir)).
Proof.
  assert (Hne : pts <> []) by (intros E; rewrite E in HN; cbn in HN; lia).
  destruct (sweep_of_points argsort Hsort pts Hne Hp) as (phis & rho & order & E & Er & HP & _ & _).
  exists rho, order. split; [exact Er|]. split; [exact HP|]. unfold wh_sweeps. rewrite E. fold (dirs dir).
  split; [|split; [|reflexivity]].
  - eexists. split; [reflexivity|]. apply Forall2_flat. intros ccw _. apply Forall2_map_same.
    intros i Hi. apply in_seq in Hi. eapply one_ray; [exact E|lia].
  - eexists. split; [reflexivity|].
    replace (map (fun ccw => (ccw, 0%nat)) (dirs dir)) with (flat_map (fun ccw : bool => [(ccw, 0%nat)]) (dirs dir)).
    + apply Forall2_flat. intros ccw _. constructor; [|constructor]. eapply one_ray; [exact E|lia].
    + destruct dir; reflexivity.
Qed.

Lemma in_range seed dir s : match seed with AtPosition p => (p < length pts - 1)%nat | _ => True end ->
  wh_sweeps argsort pts d seed dir = Some s -> good_sweeps (length pts) s /\ s <> [].
Proof.
  intros Hseed E. destruct (rays dir) as (rho & order & Er & HP & (s1 & E1 & F1) & (s2 & E2 & F2) & E3).
  assert (HF : forall want l, Forall2 (from_ray pts (weight_of d) order) want l -> good_sweeps (length pts) l).
  { intros want l F. induction F as [|w x want l Hx F IH]; [constructor|]. constructor; [apply Hx|exact IH]. }
  destruct seed.
  - rewrite E in E1. injection E1 as <-. split; [eapply HF; exact F1|]. intros ->. inversion F1 as [X|]. destruct dir; discriminate X.
  - rewrite E in E2. injection E2 as <-. split; [eapply HF; exact F2|]. intros ->. inversion F2 as [X|]. destruct dir; discriminate X.
  - rewrite E in E3. injection E3 as ->. split.
    + apply Forall_forall. intros x Hx. apply in_flat_map in Hx. destruct Hx as (ccw & _ & Hx). apply in_map_iff in Hx.
      destruct Hx as (i & <- & Hi). apply in_seq in Hi. cbn [snd]. lia.
    + destruct (length pts - 1)%nat eqn:El; [lia|]. destruct dir; discriminate.
  - unfold wh_sweeps in E. destruct (get_sweep_from_cartesian_coordinates argsort pts) as [[[phis r] o]|]; [|discriminate].
    injection E as <-. split; [|destruct dir; discriminate]. apply Forall_forall. intros x Hx. apply in_flat_map in Hx.
    destruct Hx as (ccw & _ & [<-|[]]). exact Hseed.
Qed.
End S.

(** The whole heuristic from points *)
Lemma whole argsort pts ds eps D C L overlap gap set_order minimize_K full rho order seed dir s fuel r :
  let N := length pts in let d n := nth n ds 0 in
  sorts argsort -> planar pts -> length ds = N ->
  match seed with AtPosition p => (p < N - 1)%nat | _ => True end ->
  read_coordinates argsort pts = Some (rho, order) ->
  wh_instance eps N D d C L order gap set_order ->
  wh_sweeps argsort pts (Some ds) seed dir = Some s ->
  wren_holliday_init eps N D d C L order overlap gap set_order minimize_K full s fuel = Some r ->
  exists rs, r = WhReturns (Some (encode rs)) /\ serves N D d C L eps eps rs.
Proof.
  intros N d Hsort Hp Hl Hseed Er HW Es Ew.
  assert (HN : (2 <= length pts)%nat) by exact (wi_size _ _ _ _ _ _ _ _ _ HW).
  destruct (in_range argsort Hsort pts (Some ds) HN Hp Hl seed dir s Hseed Es) as [Hg Hn].
  destruct (result _ _ _ _ _ _ _ _ _ _ _ _ HW _ _ _ Hg Hn Ew) as (rss0 & rss & rs & F0 & FI & V0 & V1 & Er' & Hin & Hb & _).
  exists rs. split; [exact Er'|]. rewrite Forall_forall in V1. now apply V1.
Qed.

(** One customer and the option to make a single attempt *)
Lemma single_raises argsort pts ds eps D C L order overlap gap set_order minimize_K full fuel s :
  sorts argsort -> planar pts -> length pts = 2%nat -> order = [1%nat] ->
  wh_sweeps argsort pts (Some ds) (wh_cli_seed true) BothWays = Some s ->
  wren_holliday_init eps 2 D (fun n => nth n ds 0) C L order overlap gap set_order minimize_K full s fuel = Some WhRaises.
Proof.
  intros Hs Hp Hl -> E. unfold wh_sweeps in E.
  destruct (get_sweep_from_cartesian_coordinates argsort pts) as [[[phis r] o]|]; [|discriminate].
  injection E as <-. cbn [wh_cli_seed flat_map app]. unfold wren_holliday_init, initial_sols. reflexivity.
Qed.
