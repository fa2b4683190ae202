(** * The TSP solver with Gurobi: subtours *)
From Verif Require Import PyBase M_tspg Spec_tspg Spec.
From Coq Require Import ZifyBool ZifyNat Lia List Permutation.
Import ListNotations.

(** ** Lists *)
Fixpoint steps (l : list nat) : list (nat * nat) := match l with a :: ((b :: _) as t) => (a, b) :: steps t | _ => [] end.
Definition ring_steps (p : list nat) : list (nat * nat) := steps (p ++ firstn 1 p).
Lemma steps_cons a b t : steps (a :: b :: t) = (a, b) :: steps (b :: t).
Proof. reflexivity. Qed.
Lemma steps_app x l2 : forall l1, steps (l1 ++ x :: l2) = steps (l1 ++ [x]) ++ steps (x :: l2).
Proof.
  induction l1 as [|a l1 IH]; [reflexivity|]. destruct l1 as [|b l1]; [reflexivity|]. cbn [app] in *. rewrite !steps_cons, IH. reflexivity.
Qed.
Lemma steps_in l : forall a b, In (a, b) (steps l) -> In a l /\ In b l.
Proof.
  induction l as [|x l IH]; intros a b H; [destruct H|]. destruct l as [|y l]; [destruct H|]. rewrite steps_cons in H. destruct H as [E|H]; [injection E as -> ->; cbn; auto|].
  apply IH in H. cbn in *. tauto.
Qed.
Lemma ring_rotate l1 l2 : Permutation (ring_steps (l1 ++ l2)) (ring_steps (l2 ++ l1)).
Proof.
  unfold ring_steps. destruct l1 as [|a l1]; [now rewrite app_nil_r|]. destruct l2 as [|b l2]; [now rewrite app_nil_r|]. cbn [app firstn].
  replace (a :: (l1 ++ b :: l2) ++ [a]) with ((a :: l1) ++ b :: (l2 ++ [a])) by (cbn; now rewrite <- app_assoc).
  replace (b :: (l2 ++ a :: l1) ++ [b]) with ((b :: l2) ++ a :: (l1 ++ [b])) by (cbn; now rewrite <- app_assoc).
  rewrite steps_app, (steps_app a). cbn [app]. apply Permutation_app_comm.
Qed.
Lemma nodup_filter_le (P : nat -> bool) l m : NoDup l -> incl (filter P l) (filter P m) -> (length (filter P l) <= length (filter P m))%nat.
Proof. intros Hn Hi. apply NoDup_incl_length; [now apply NoDup_filter|exact Hi]. Qed.

(** ** Graphs in which each node has two neighbours *)
Lemma var_sym x i j : var x i j = var x j i.
Proof. unfold var. now rewrite Nat.max_comm, Nat.min_comm. Qed.
Definition ring (x : nat -> nat -> bool) (p : list nat) : Prop := Forall (fun e => var x (fst e) (snd e) = true) (ring_steps p).
Definition below (n : nat) (p : list nat) : Prop := NoDup p /\ forall a, In a p -> (a < n)%nat.
Lemma below_le n p : below n p -> (length p <= n)%nat.
Proof. intros [Hn Hb]. rewrite <- (seq_length n 0). apply NoDup_incl_length; [exact Hn|]. intros a Ha. apply in_seq. specialize (Hb a Ha). lia. Qed.
Lemma below_all n p : below n p -> (n <= length p)%nat -> forall a, (a < n)%nat -> In a p.
Proof. intros [Hn Hb] Hl a Ha. apply (NoDup_length_incl Hn (l' := seq 0 n)); [rewrite seq_length; exact Hl| |apply in_seq; lia]. intros b Hb'. apply in_seq. specialize (Hb b Hb'). lia. Qed.

Section Two.
Variables (n : nat) (x : nat -> nat -> bool).
Hypothesis H2 : degree_two n x.
Notation X := (var x).
Lemma irr i : (i < n)%nat -> X i i = false.
Proof. intros Hi. unfold var. rewrite Nat.max_id, Nat.min_id. now apply H2. Qed.
Lemma two_only i a b c : (i < n)%nat -> (a < n)%nat -> (b < n)%nat -> (c < n)%nat -> X i a = true -> X i b = true -> X i c = true -> a <> b -> c = a \/ c = b.
Proof.
  intros Hi Ha Hb Hc Ea Eb Ec Hab. destruct (Nat.eq_dec c a) as [|Na]; [auto|]. destruct (Nat.eq_dec c b) as [|Nb]; [auto|]. exfalso.
  assert (G : (length [a; b; c] <= length (filter (X i) (seq 0 n)))%nat).
  { apply NoDup_incl_length; [repeat constructor; cbn; intuition|]. intros y [<-|[<-|[<-|[]]]]; apply filter_In; (split; [apply in_seq; lia|assumption]). }
  rewrite (proj1 (H2 i Hi)) in G. cbn in G. lia.
Qed.
Lemma two_some i : (i < n)%nat -> exists a b, a <> b /\ (a < n)%nat /\ (b < n)%nat /\ X i a = true /\ X i b = true.
Proof.
  intros Hi. destruct (H2 i Hi) as [El _]. pose proof (NoDup_filter (X i) (seq_NoDup n 0)) as Hn. destruct (filter (X i) (seq 0 n)) as [|a [|b [|c t]]] eqn:E; try discriminate.
  assert (Fa : In a (filter (X i) (seq 0 n))) by (rewrite E; now left). assert (Fb : In b (filter (X i) (seq 0 n))) by (rewrite E; right; now left).
  apply filter_In in Fa, Fb. rewrite !in_seq in *. exists a, b. inversion Hn; subst. cbn in *. intuition lia.
Qed.
Definition shut (V : list nat) : Prop := forall a b, In a V -> (b < n)%nat -> X a b = true -> In b V.
Lemma ring_head a t : ring x (a :: t) -> NoDup (a :: t) -> (2 <= length t)%nat -> exists y t' z, t = y :: t' ++ [z] /\ X a y = true /\ X a z = true /\ y <> z.
Proof.
  intros HR Hn Hl. destruct t as [|y t]; [cbn in Hl; lia|]. destruct (exists_last (l := t)) as (t' & z & ->); [destruct t; [cbn in Hl; lia|discriminate]|].
  exists y, t', z. split; [reflexivity|]. unfold ring, ring_steps in HR. cbn [firstn app] in HR. rewrite Forall_forall in HR.
  split; [apply (HR (a, y)); now left|]. split.
  - rewrite var_sym. apply (HR (z, a)). right. rewrite <- app_assoc. cbn [app]. change (y :: t' ++ [z; a]) with ((y :: t') ++ z :: [a]). rewrite steps_app. apply in_or_app. right. now left.
  - inversion Hn; subst. inversion H3; subst. intros ->. apply H4. apply in_or_app. right. now left.
Qed.
Lemma ring_perm p q : Permutation (ring_steps p) (ring_steps q) -> ring x p -> ring x q.
Proof. intros P. unfold ring. intros F. rewrite Forall_forall in *. intros e He. apply F. now apply (Permutation_in _ (Permutation_sym P)). Qed.
Lemma ring_shut p : ring x p -> below n p -> (3 <= length p)%nat -> shut p.
Proof.
  intros HR [Hn Hb] Hl a b Ha Hbn E. destruct (in_split a p Ha) as (l1 & l2 & ->).
  assert (P : Permutation ((a :: l2) ++ l1) (l1 ++ a :: l2)) by apply Permutation_app_comm.
  assert (HR' : ring x ((a :: l2) ++ l1)) by (eapply ring_perm; [apply ring_rotate|exact HR]).
  cbn [app] in HR'. destruct (ring_head a (l2 ++ l1) HR') as (y & t & z & Et & Ey & Ez & Nyz).
  - eapply Permutation_NoDup; [symmetry; exact P|exact Hn].
  - apply Permutation_length in P. cbn [app length] in P. lia.
  - assert (Iy : In y (l1 ++ a :: l2)) by (apply (Permutation_in _ P); cbn [app]; rewrite Et; right; now left).
    assert (Iz : In z (l1 ++ a :: l2)) by (apply (Permutation_in _ P); cbn [app]; rewrite Et; right; right; apply in_or_app; right; now left).
    destruct (two_only a y z b) as [->| ->]; auto.
Qed.
(** ** _subtour *)
Lemma next_in a b : (a < n)%nat -> (In b (next_to (edge_list x n) a) <-> (b < n)%nat /\ X a b = true).
Proof.
  intros Ha. unfold next_to, edge_list. rewrite in_map_iff. split.
  - intros ([u v] & <- & H). apply filter_In in H. destruct H as [H E]. cbn in *. apply Nat.eqb_eq in E. subst u. apply in_flat_map in H. destruct H as (i & _ & H). apply in_map_iff in H. destruct H as (j & E & H).
    injection E as -> ->. apply filter_In in H. rewrite in_seq in H. split; [lia|tauto].
  - intros [Hb E]. exists (a, b). split; [reflexivity|]. apply filter_In. split; [|apply Nat.eqb_refl]. apply in_flat_map. exists a. split; [apply in_seq; lia|]. apply in_map, filter_In. split; [apply in_seq; lia|exact E].
Qed.
Lemma unvisited_in V y : unvisited V y = true <-> ~ In y V.
Proof.
  unfold unvisited. rewrite negb_true_iff. split.
  - intros E H. assert (G : existsb (Nat.eqb y) V = true) by (apply existsb_exists; exists y; split; [exact H|apply Nat.eqb_refl]). congruence.
  - intros H. destruct (existsb (Nat.eqb y) V) eqn:E; [|reflexivity]. apply existsb_exists in E. destruct E as (z & Hz & E). apply Nat.eqb_eq in E. subst. contradiction.
Qed.
Definition chain (l : list nat) : Prop := Forall (fun e => X (fst e) (snd e) = true) (steps l).
(** The end of a walk *)
Lemma closing cur q old : shut old -> below n ((cur :: q) ++ old) -> chain (cur :: q) -> (forall b, (b < n)%nat -> X cur b = true -> In b ((cur :: q) ++ old)) ->
  exists v q', q = q' ++ [v] /\ X cur v = true /\ (2 <= length q)%nat.
Proof.
  intros HS [Hn Hb] HC HA. assert (Hcur : (cur < n)%nat) by (apply Hb; now left).
  assert (HQ : forall b, (b < n)%nat -> X cur b = true -> In b q).
  { intros b Hb' E. specialize (HA b Hb' E). apply in_app_or in HA. destruct HA as [[<-|HA]|HA]; [rewrite irr in E by exact Hb'; discriminate|exact HA|]. exfalso.
    assert (G : In cur old) by (apply (HS b); [exact HA|exact Hcur|now rewrite var_sym]). cbn [app] in Hn. inversion Hn; subst. apply H1, in_or_app. now right. }
  destruct (two_some cur Hcur) as (a & b & Nab & Ha & Hb' & Ea & Eb). destruct q as [|p t]; [destruct (HQ a Ha Ea)|].
  assert (G : exists y, y <> p /\ (y < n)%nat /\ X cur y = true) by (destruct (Nat.eq_dec a p); [exists b; split; [congruence|auto]|exists a; auto]).
  destruct G as (y & Nyp & Hy & Ey). pose proof (HQ y Hy Ey) as Iy. destruct Iy as [->|Iy]; [contradiction|]. destruct (in_split y t Iy) as (t1 & t2 & ->).
  destruct t2 as [|w t2].
  - exists y, (p :: t1). split; [reflexivity|]. split; [exact Ey|]. cbn [length]. rewrite app_length. cbn. lia.
  - exfalso. destruct (exists_last (l := p :: t1)) as (l1 & u & El); [discriminate|].
    assert (EQ : cur :: p :: t1 ++ y :: w :: t2 = (cur :: l1) ++ u :: y :: w :: t2) by (change (p :: t1 ++ y :: w :: t2) with ((p :: t1) ++ y :: w :: t2); rewrite El, <- app_assoc; reflexivity).
    unfold chain in HC. rewrite EQ, steps_app in HC. apply Forall_app in HC. destruct HC as [_ HC]. rewrite !steps_cons in HC. inversion HC as [|? ? E1 HC']; subst. inversion HC' as [|? ? E2 _]; subst. cbn [fst snd] in E1, E2.
    rewrite EQ in Hn, Hb. cbn [app] in Hn. rewrite <- app_assoc in Hn. cbn [app] in Hn. inversion Hn as [|? ? Nc Hn']; subst. apply NoDup_remove in Hn'. destruct Hn' as [Hn' Nu].
    assert (Bu : (u < n)%nat) by (apply Hb; right; rewrite <- !app_assoc; apply in_or_app; right; now left).
    assert (Bw : (w < n)%nat) by (apply Hb; right; rewrite <- !app_assoc; apply in_or_app; right; right; right; now left).
    destruct (two_only y u w cur) as [->| ->]; auto.
    + now rewrite var_sym.
    + now rewrite var_sym.
    + intros ->. apply Nu, in_or_app. right. right. now left.
    + apply Nc, in_or_app. right. now left.
    + apply Nc, in_or_app. right. right. right. now left.
Qed.
Lemma walk_ok : forall fuel q cur old, shut old -> below n ((cur :: q) ++ old) -> chain (cur :: q) -> (n < fuel + length (q ++ old))%nat ->
  exists c, walk (edge_list x n) fuel (q ++ old) cur = Some (c, rev c ++ q ++ old) /\
    let p := rev q ++ c in below n (rev p ++ old) /\ ring x p /\ (3 <= length p)%nat /\ (exists t, c = cur :: t).
Proof.
  induction fuel as [|fuel IH]; intros q cur old HS HB HC HF.
  { pose proof (below_le _ _ HB) as G. cbn [app length] in G. lia. }
  cbn [walk]. assert (Hcur : (cur < n)%nat) by (apply HB; now left). destruct (filter (unvisited (cur :: q ++ old)) (next_to (edge_list x n) cur)) as [|y ys] eqn:E.
  - assert (HA : forall b, (b < n)%nat -> X cur b = true -> In b ((cur :: q) ++ old)).
    { intros b Hb Eb. cbn [app]. destruct (in_dec Nat.eq_dec b (cur :: q ++ old)) as [G|G]; [exact G|]. exfalso. assert (In b []); [|contradiction]. rewrite <- E. apply filter_In.
      split; [apply next_in; auto|now apply unvisited_in]. }
    destruct (closing cur q old HS HB HC HA) as (v & q' & -> & Ev & Hl). exists [cur]. split; [reflexivity|].
    assert (EP : rev (q' ++ [v]) ++ [cur] = v :: rev q' ++ [cur]) by (rewrite rev_app_distr; reflexivity). rewrite EP. cbv zeta.
    assert (ER : rev (v :: rev q' ++ [cur]) = cur :: q' ++ [v]) by (cbn [rev]; rewrite rev_app_distr, rev_involutive; reflexivity). rewrite ER. split; [exact HB|]. split; [|split; [|eauto]].
    + unfold ring, ring_steps. cbn [app firstn]. assert (FR : Forall (fun e => X (fst e) (snd e) = true) (steps (rev (cur :: q' ++ [v])))).
      { clear - HC. unfold chain in HC. induction (cur :: q' ++ [v]) as [|a l IHl]; [constructor|]. destruct l as [|b l]; [constructor|]. rewrite steps_cons in HC. inversion HC as [|? ? E1 E2]; subst. cbn [rev] in *.
        rewrite <- app_assoc. cbn [app]. rewrite steps_app. apply Forall_app. split; [now apply IHl|]. constructor; [cbn in *; now rewrite var_sym|constructor]. }
      cbn [rev] in FR. rewrite rev_app_distr in FR. cbn [rev app] in FR.
      replace (v :: (rev q' ++ [cur]) ++ [v]) with ((v :: rev q') ++ cur :: [v]) by (cbn; now rewrite <- app_assoc). rewrite steps_app. apply Forall_app. split; [exact FR|]. constructor; [exact Ev|constructor].
    + cbn [length]. rewrite app_length, rev_length. cbn. rewrite app_length in Hl. cbn in Hl. lia.
  - assert (Hy : In y (next_to (edge_list x n) cur) /\ unvisited (cur :: q ++ old) y = true) by (apply filter_In; rewrite E; now left). destruct Hy as [Hy Uy]. apply next_in in Hy; [|exact Hcur]. destruct Hy as [By Ey]. apply unvisited_in in Uy.
    destruct (IH (cur :: q) y old HS) as (c & EW & HB' & HR & HL & Hc).
    + destruct HB as [Hn Hb]. split; [constructor; [exact Uy|exact Hn]|]. intros a [<-|Ha]; [exact By|now apply Hb].
    + unfold chain. rewrite steps_cons. constructor; [cbn; now rewrite var_sym|exact HC].
    + cbn [app length] in *. lia.
    + exists (cur :: c). cbn [app] in EW. rewrite EW. cbn [option_map fst snd]. split; [cbn [rev]; now rewrite <- app_assoc|]. cbn [rev] in HB', HR, HL. rewrite <- app_assoc in HB', HR, HL. cbn [app] in HB', HR, HL. split; [exact HB'|]. split; [exact HR|]. split; [exact HL|eauto].
Qed.
Lemma shortest_ok : forall cs, cs <> [] -> In (shortest cs) cs /\ forall c, In c cs -> (length (shortest cs) <= length c)%nat.
Proof.
  induction cs as [|c [|c2 cs] IH]; intros H; [contradiction|cbn; split; [auto|intros c' [<-|[]]; lia]|].
  destruct IH as [I1 I2]; [discriminate|]. change (shortest (c :: c2 :: cs)) with (let s := shortest (c2 :: cs) in if (length c <=? length s)%nat then c else s). cbv zeta. destruct (Nat.leb_spec (length c) (length (shortest (c2 :: cs)))) as [G|G]; (split; [|intros c' [<-|Hc']; [lia|specialize (I2 c' Hc'); lia]]); [now left|now right].
Qed.
Lemma cycles_ok : forall fuel visited, shut visited -> below n visited -> (length visited < n)%nat -> (n <= fuel + length visited)%nat ->
  exists cs, cycles (edge_list x n) n fuel visited (length visited) = Some cs /\ cs <> [] /\ Forall (fun c => ring x c /\ below n c /\ (3 <= length c)%nat) cs /\
    (visited = [] -> exists t ts, cs = (0%nat :: t) :: ts /\ (length (0%nat :: t) = n -> ts = [])).
Proof.
  induction fuel as [|fuel IH]; intros V HS HB HV HF; [lia|]. cbn [cycles]. destruct (find (unvisited V) (seq 0 n)) as [cur|] eqn:E.
  - pose proof E as E'. apply find_some in E'. destruct E' as [Hc Uc]. apply in_seq in Hc. apply unvisited_in in Uc.
    destruct (walk_ok (S n) [] cur V HS) as (c & EW & HB' & HR & HL & t & Ec).
    + destruct HB as [Hn Hb]. split; [constructor; assumption|]. intros a [<-|Ha]; [lia|now apply Hb].
    + constructor.
    + cbn. lia.
    + cbn [app rev] in *. rewrite EW. assert (HBc : below n c).
      { destruct HB' as [Hn Hb]. split; [|intros a Ha; apply Hb, in_or_app; left; now apply in_rev in Ha]. apply NoDup_rev in Hn. rewrite rev_app_distr, rev_involutive in Hn. clear - Hn. induction (rev V) as [|a l IHl]; [exact Hn|]. cbn in Hn. inversion Hn; subst. auto. }
      assert (H0 : V = [] -> cur = 0%nat). { intros ->. destruct n as [|n']; [lia|]. cbn in E. now injection E as <-. }
      assert (FR : Forall (fun c => ring x c /\ below n c /\ (3 <= length c)%nat) [c]) by (constructor; [auto|constructor]).
      destruct (Nat.eqb_spec (length V + length c) n) as [G|G].
      * exists [c]. split; [reflexivity|]. split; [discriminate|]. split; [exact FR|]. intros EV. specialize (H0 EV). subst. exists t, []. auto.
      * assert (EL : (length V + length c)%nat = length (rev c ++ V)) by (rewrite app_length, rev_length; lia). rewrite EL in *. pose proof (below_le _ _ HB') as G2.
        assert (Hc1 : (1 <= length c)%nat) by (subst; cbn; lia).
        destruct (IH (rev c ++ V)) as (cs & EC & Hne & FC & _); [|exact HB'|lia|lia|].
        { intros a b Ha Hb Eab. apply in_app_or in Ha. apply in_or_app. destruct Ha as [Ha|Ha]; [left; apply -> in_rev; apply in_rev in Ha; exact (ring_shut c HR HBc HL a b Ha Hb Eab)|right; exact (HS a b Ha Hb Eab)]. }
        exists (c :: cs). rewrite EC. split; [reflexivity|]. split; [discriminate|]. split; [constructor; [apply (Forall_inv FR)|exact FC]|].
        intros EV. pose proof (H0 EV) as E0. subst cur c. exists t, cs. split; [reflexivity|]. intros El. exfalso. apply G. rewrite EV, app_nil_r, rev_length. exact El.
  - exfalso. assert (G : (length (seq 0 n) <= length V)%nat).
    { apply NoDup_incl_length; [apply seq_NoDup|]. intros a Ha. pose proof (find_none _ _ E a Ha) as G. destruct (in_dec Nat.eq_dec a V) as [G'|G']; [exact G'|]. apply unvisited_in in G'. congruence. }
    rewrite seq_length in G. lia.
Qed.
(** The result: the nodes of a component; if it has all nodes then it begins with the first. *)
Lemma subtour_ok : (1 <= n)%nat -> exists s, subtour (edge_list x n) n = Some s /\ ring x s /\ below n s /\ (3 <= length s)%nat /\ (length s = n -> exists t, s = 0%nat :: t).
Proof.
  intros Hn. destruct (cycles_ok n []) as (cs & E & Hne & FC & H0); [intros a b []|split; [constructor|intros a []]|cbn; lia|cbn; lia|].
  unfold subtour. change 0%nat with (length (@nil nat)) at 1. rewrite E. cbn [option_map]. exists (shortest cs). split; [reflexivity|]. destruct (shortest_ok cs Hne) as [Hin Hmin]. rewrite Forall_forall in FC. destruct (FC _ Hin) as (G1 & G2 & G3).
  split; [exact G1|]. split; [exact G2|]. split; [exact G3|]. intros El. destruct (H0 eq_refl) as (t & ts & Ecs & Ht). assert (Hc0 : In (0%nat :: t) cs) by (rewrite Ecs; now left). specialize (Hmin _ Hc0).
  destruct (FC _ Hc0) as (_ & B0 & _). apply below_le in B0. rewrite (Ht ltac:(clear - Hmin B0 El; cbn [length] in *; lia)) in Ecs. rewrite Ecs. exists t. reflexivity.
Qed.
(** ** The number of edges inside *)
Lemma sum_count_cons i : forall t m, (fold_right Nat.add 0 (map (fun a => length (filter (X a) (i :: m))) t) = length (filter (X i) t) + fold_right Nat.add 0 (map (fun a => length (filter (X a) m)) t))%nat.
Proof.
  induction t as [|a t IH]; intros m; [reflexivity|]. cbn [map fold_right]. rewrite IH. cbn [filter]. rewrite (var_sym x i a). destruct (X a i); cbn [length]; lia.
Qed.
Lemma inside_double : forall t, (forall a, In a t -> (a < n)%nat) -> (2 * inside x t = fold_right Nat.add 0 (map (fun a => length (filter (X a) t)) t))%nat.
Proof.
  induction t as [|i t IH]; intros Hb; [reflexivity|]. cbn [inside map fold_right]. rewrite sum_count_cons. cbn [filter]. rewrite irr by (apply Hb; now left). rewrite <- IH by (intros a Ha; apply Hb; now right). lia.
Qed.
Lemma shut_count t a : shut t -> below n t -> In a t -> length (filter (X a) t) = 2%nat.
Proof.
  intros HS [Hn Hb] Ha. rewrite <- (proj1 (H2 a (Hb a Ha))). apply Permutation_length, NoDup_Permutation; [now apply NoDup_filter|apply NoDup_filter, seq_NoDup|].
  intros b. rewrite !filter_In, in_seq. split; [intros [Hb1 E]; specialize (Hb b Hb1); split; [lia|exact E]|intros [Hb1 E]; split; [apply (HS a); [exact Ha|lia|exact E]|exact E]].
Qed.
Lemma shut_inside t : shut t -> below n t -> inside x t = length t.
Proof.
  intros HS HB. assert (E : (2 * inside x t = 2 * length t)%nat); [|lia]. rewrite inside_double by apply HB.
  assert (G : forall l, (forall a, In a l -> In a t) -> fold_right Nat.add 0%nat (map (fun a => length (filter (X a) t)) l) = (2 * length l)%nat); [|apply G; auto].
  induction l as [|a l IH]; intros Hl; [reflexivity|]. cbn [map fold_right]. rewrite IH by (intros b Hb; apply Hl; now right). rewrite shut_count by (auto; apply Hl; now left). cbn [length]. lia.
Qed.
(** What meets its own constraint is one tour. *)
Lemma own_cut : (1 <= n)%nat -> meets n x x -> exists t, subtour (edge_list x n) n = Some (0%nat :: t) /\ ring x (0%nat :: t) /\ below n (0%nat :: t) /\ length (0%nat :: t) = n /\ (3 <= n)%nat.
Proof.
  intros Hn HM. destruct (subtour_ok Hn) as (s & E & HR & HB & HL & H0). assert (El : length s = n).
  { pose proof (below_le _ _ HB) as G. destruct (Nat.eq_dec (length s) n) as [|N]; [assumption|]. exfalso. specialize (HM s). unfold subtour_elim in HM. rewrite E in HM. replace (length s <? n)%nat with true in HM by (symmetry; apply Nat.ltb_lt; lia).
    specialize (HM eq_refl). rewrite (shut_inside s (ring_shut s HR HB HL) HB) in HM. lia. }
  destruct (H0 El) as (t & ->). exists t. split; [exact E|]. split; [exact HR|]. split; [exact HB|]. split; [exact El|lia].
Qed.
(** No edge leaves a set of nodes with as many edges inside as nodes. *)
Lemma full_shut t : below n t -> (length t <= inside x t)%nat -> shut t.
Proof.
  intros HB Hi. assert (Hle : forall a, In a t -> (length (filter (X a) t) <= 2)%nat).
  { intros a Ha. destruct HB as [Hn Hb]. rewrite <- (proj1 (H2 a (Hb a Ha))). apply nodup_filter_le; [exact Hn|]. intros b. rewrite !filter_In, in_seq. intros [H E]. specialize (Hb b H). split; [lia|exact E]. }
  assert (Heq : forall a, In a t -> length (filter (X a) t) = 2%nat).
  { pose proof (inside_double t (proj2 HB)) as ED. assert (G : forall l, (forall a, In a l -> In a t) -> (2 * length l <= fold_right Nat.add 0%nat (map (fun a => length (filter (X a) t)) l))%nat -> forall a, In a l -> length (filter (X a) t) = 2%nat); [|apply (G t); [auto|lia]].
    assert (GU : forall l, (forall a, In a l -> In a t) -> (fold_right Nat.add 0%nat (map (fun a => length (filter (X a) t)) l) <= 2 * length l)%nat).
    { induction l as [|a l IH]; intros Hl; [cbn; lia|]. cbn [map fold_right length]. specialize (IH ltac:(intros b Hb; apply Hl; now right)). specialize (Hle a (Hl a (or_introl eq_refl))). lia. }
    induction l as [|a l IH]; intros Hl Hs b Hb; [destruct Hb|]. cbn [map fold_right length] in Hs. pose proof (Hle a (Hl a (or_introl eq_refl))). pose proof (GU l ltac:(intros c Hc; apply Hl; now right)).
    destruct Hb as [<-|Hb]; [lia|]. apply IH; [intros c Hc; apply Hl; now right|lia|exact Hb]. }
  intros a b Ha Hb E. destruct HB as [Hn Hbb]. specialize (Heq a Ha).
  destruct (filter (X a) t) as [|u [|v [|w r]]] eqn:EF; try discriminate.
  assert (Iu : In u (filter (X a) t)) by (rewrite EF; now left). assert (Iv : In v (filter (X a) t)) by (rewrite EF; right; now left).
  assert (Nuv : u <> v). { pose proof (NoDup_filter (X a) Hn) as HN. rewrite EF in HN. inversion HN; subst. cbn in *. intuition. }
  apply filter_In in Iu, Iv. destruct (two_only a u v b) as [->| ->]; try tauto; apply Hbb; tauto.
Qed.
End Two.
