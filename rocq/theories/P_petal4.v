(** * Proofs about the petal algorithm: relaxed petals *)
From Verif Require Import Spec Spec_rfcs Spec_inter Spec_savings Spec_petal PyBase M_util M_cvrp_ops M_routedata M_inter M_ssavings P_driver P_rd P_inter P_inter2 P_inter3 M_petal P_petal2 P_petal3 P_base.
From Coq Require Import ZifyBool ZifyNat Lia Arith List Permutation.
Import ListNotations.
Local Open Scope Z_scope.

(** ** The cheapest place *)
Lemma fold_pair (A : nat -> Z) {B} (G : B -> nat -> B) l : forall a b, fold_left (fun s j => (fst s + A j, G (snd s) j)) l (a, b) = (a + sumZ (map A l), fold_left G l b).
Proof. induction l as [|j l IH]; intros a b; cbn [fold_left map fst snd]; [f_equal; cbn; lia|]. rewrite IH, sumZ_cons. f_equal. lia. Qed.

Lemma fold_min (F : nat -> Z) l : l <> [] ->
  exists i, fold_left (fun s j => match s with Some (bd, _) => if F j <? bd then Some (F j, j) else s | None => Some (F j, j) end) l None = Some (F i, i) /\ In i l /\ forall k, In k l -> F i <= F k.
Proof.
  intros H. assert (G : forall l i, exists i', fold_left (fun s j => match s with Some (bd, _) => if F j <? bd then Some (F j, j) else s | None => Some (F j, j) end) l (Some (F i, i)) = Some (F i', i') /\ (i' = i \/ In i' l) /\ F i' <= F i /\ forall k, In k l -> F i' <= F k).
  { clear. induction l as [|j l IH]; intros i; cbn [fold_left].
    - exists i. repeat split; auto; try lia; easy.
    - destruct (Z.ltb_spec (F j) (F i)) as [E|E].
      + destruct (IH j) as (i' & H1 & H2 & H3 & H4). exists i'. split; [exact H1|]. split; [cbn; intuition|]. split; [lia|]. intros k [<-|Hk]; auto.
      + destruct (IH i) as (i' & H1 & H2 & H3 & H4). exists i'. split; [exact H1|]. split; [cbn; intuition|]. split; [lia|]. intros k [<-|Hk]; [lia|auto]. }
  destruct l as [|j l]; [easy|]. cbn [fold_left]. destruct (G l j) as (i & H1 & H2 & H3 & H4). exists i. split; [exact H1|]. split; [cbn; intuition|].
  intros k [<-|Hk]; auto.
Qed.

Lemma cheapest_spec D n r : exists m1 m2, r = m1 ++ m2 /\
  cheapest D n (wrap r) = (route_cost D r, Some (route_cost D (m1 ++ [n] ++ m2) - route_cost D r, S (length m1))) /\
  forall a b, r = a ++ b -> route_cost D (m1 ++ [n] ++ m2) <= route_cost D (a ++ [n] ++ b).
Proof.
  assert (Hwl : length (wrap r) = S (S (length r))) by (unfold wrap; cbn [length]; rewrite app_length; cbn [length]; lia).
  assert (Hl : range 1 (length (wrap r)) <> []).
  { rewrite Hwl. unfold range. cbn. discriminate. }
  destruct (fold_min (fun j => ins_cost D r n j) _ Hl) as (i & F1 & F2 & F3).
  unfold range in F2. apply in_seq in F2. assert (Hi : (i - 1 <= length r)%nat) by lia.
  assert (Hsplit : firstn (i - 1) r ++ skipn (i - 1) r = r) by apply firstn_skipn.
  assert (Hlen : length (firstn (i - 1) r) = (i - 1)%nat) by (rewrite firstn_length; lia).
  assert (HV : ins_cost D r n i = route_cost D (firstn (i - 1) r ++ [n] ++ skipn (i - 1) r) - route_cost D r).
  { rewrite <- Hsplit at 4. rewrite <- ins_cost_spec, Hsplit, Hlen. f_equal. lia. }
  exists (firstn (i - 1) r), (skipn (i - 1) r). split; [now symmetry|]. split.
  - unfold cheapest. set (A := fun j => D (at_ (wrap r) (j - 1)) (at_ (wrap r) j)).
    set (G := fun (s : option (Z * nat)) j => match s with Some (bd, _) => if ins_cost D r n j <? bd then Some (ins_cost D r n j, j) else s | None => Some (ins_cost D r n j, j) end).
    change (fold_left (fun s j => (fst s + A j, G (snd s) j)) (range 1 (length (wrap r))) (0, None) = (route_cost D r, Some (route_cost D (firstn (i - 1) r ++ [n] ++ skipn (i - 1) r) - route_cost D r, S (length (firstn (i - 1) r))))).
    rewrite fold_pair. unfold G at 1. rewrite F1, HV, Hlen. f_equal; [|f_equal; f_equal; lia].
    change (sumZ (map A (range 1 (length (wrap r))))) with (consecutive_sum D (wrap r)). rewrite consecutive_sum_path. reflexivity.
  - intros a b E. assert (Hk : In (S (length a)) (range 1 (length (wrap r)))). { unfold range. apply in_seq. rewrite Hwl, E, app_length. lia. }
    specialize (F3 _ Hk). rewrite HV in F3. rewrite E, ins_cost_spec in F3. rewrite E. lia.
Qed.

Lemma insert_wrap m1 n m2 : insert_at (S (length m1)) n (wrap (m1 ++ m2)) = wrap (m1 ++ [n] ++ m2).
Proof.
  unfold insert_at, wrap. cbn [firstn skipn app]. f_equal. rewrite <- !app_assoc. rewrite firstn_app, firstn_all, Nat.sub_diag, skipn_app, skipn_all, Nat.sub_diag. cbn. now rewrite app_nil_r.
Qed.
Lemma delete_wrap a n b : firstn (S (length a)) (wrap (a ++ n :: b)) ++ skipn (S (length a) + 1) (wrap (a ++ n :: b)) = wrap (a ++ b).
Proof.
  pose proof (del_visit_wrap [a ++ n :: b] (0%nat, S (length a)) a b n eq_refl eq_refl) as H. cbn in H. injection H as H.
  unfold wrap. cbn [firstn skipn Nat.add app]. f_equal. exact H.
Qed.

(** ** Shorter by leaving customers out *)
Lemma filter_shorter D p l : triangle D -> forall a b, route_cost D (a ++ filter p l ++ b) <= route_cost D (a ++ l ++ b).
Proof.
  intros HT. induction l as [|x l IH]; intros a b; cbn [filter]; [cbn; lia|]. destruct (p x).
  - specialize (IH (a ++ [x]) b). rewrite <- !app_assoc in IH. exact IH.
  - pose proof (remove_shorter D a x (l ++ b) HT). specialize (IH a b). cbn [app] in *. lia.
Qed.

Lemma within_truthy eps lim x : (forall l, truthy lim = Some l -> x <= l + eps) -> within lim eps x.
Proof. intros H. apply exceeds_within. unfold exceeds. destruct (truthy lim) as [l|]; [|reflexivity]. specialize (H l eq_refl). lia. Qed.

Lemma mem_in x l : mem x l = true <-> In x l.
Proof. unfold mem. rewrite existsb_exists. split; [intros [y [H E]]|intro H; exists x]. apply Nat.eqb_eq in E. congruence. rewrite Nat.eqb_refl. auto. Qed.
Lemma mem_not x l : mem x l = false <-> ~ In x l.
Proof. rewrite <- mem_in. destruct (mem x l); intuition congruence. Qed.
Lemma f2_nth {A B} (R : A -> B -> Prop) a b l l' : Forall2 R l l' -> forall i, (i < length l)%nat -> R (nth i l a) (nth i l' b).
Proof. induction 1 as [|x y l l' H HF IH]; intros i Hi; [cbn in Hi; lia|]. destruct i; cbn [nth]; [exact H|]. apply IH. cbn in Hi. lia. Qed.
Lemma dem_nn d l : (forall n, 0 <= d n) -> 0 <= demand d l.
Proof. intros H. induction l as [|x l IH]; [rewrite demand_nil; lia|]. rewrite demand_cons. specialize (H x). lia. Qed.
Lemma nodup_l {A} (l l' : list A) : NoDup (l ++ l') -> NoDup l.
Proof. induction l as [|x l IH]; intros H; [constructor|]. cbn in H. inversion H; subst. constructor; [|auto]. intros X. apply H2, in_or_app. now left. Qed.
Lemma nodup_r {A} (l l' : list A) : NoDup (l ++ l') -> NoDup l'.
Proof. induction l as [|x l IH]; intros H; [exact H|]. cbn in H. inversion H; auto. Qed.

Section Relax.
Variable eps : Z.
Variable N : nat.
Variable D : matrix.
Variable d : demands.
Variables C L : limit.
Hypothesis Heps : 0 <= eps.
Hypothesis Htri : triangle D.
Hypothesis HD0 : D 0%nat 0%nat = 0.
Hypothesis Hd : forall n, 0 <= d n.
Hypothesis Hd0 : d 0%nat = 0.

(** A route that is recorded correctly *)
Definition good (rd : routedata) : Prop :=
  exists q, exact_rd D d C q rd /\ NoDup q /\ (forall x, In x q -> (1 <= x < N)%nat) /\ feasible D d C L eps eps q.

Lemma feasible_nil r : feasible D d C L eps eps r -> feasible D d C L eps eps [].
Proof using Htri Hd. induction r as [|x r IH]; [auto|]. intros H. apply IH. apply (remove_feasible D d C L eps eps [] x r Htri (Hd x)). exact H. Qed.
Lemma exact_nil : exact_rd D d C [] empty_rd.
Proof using HD0 Hd N. split; [reflexivity|]. split; [cbn; unfold route_cost; cbn; lia|reflexivity]. Qed.

Section Moved.
Variable n : nat.
Variables r1_delta r2_delta : Z.
Variable r2 : list nat.
Variable rd2 : routedata.
Variables m1 m2 : list nat.
Variable receiving : list routedata.
Variable rcv : list (list nat).
Variable discard : option nat.
Variables d_excess l_excess : option Z.
Hypothesis Hn : (1 <= n < N)%nat.
Hypothesis Hn2 : ~ In n r2.
Hypothesis Hr2 : NoDup r2.
Hypothesis Hr2c : forall x, In x r2 -> (1 <= x < N)%nat.
Hypothesis Hx2 : exact_rd D d C r2 rd2.
Hypothesis Hm12 : r2 = m1 ++ m2.
Hypothesis Hdelta : r2_delta = route_cost D (m1 ++ [n] ++ m2) - route_cost D r2.
Hypothesis Hrcv : Forall2 (exact_rd D d C) rcv receiving.
Hypothesis Hrcvf : Forall (feasible D d C L eps eps) rcv.
Hypothesis Hrcvc : forall x, In x (concat rcv) -> (1 <= x < N)%nat.
Hypothesis Hdis : forall rm, NoDup rm -> incl rm r2 -> NoDup (rm ++ concat rcv).
Hypothesis Hdx : match truthy C with
                 | Some c => match truthy d_excess with Some x => x = demand d r2 + d n - c | None => demand d r2 + d n <= c + eps end
                 | None => True end.
Hypothesis Hlx : match truthy L with
                 | Some l => match truthy l_excess with Some x => x = rd_cost rd2 + r2_delta - l | None => rd_cost rd2 + r2_delta <= l + eps end
                 | None => True end.

Definition rm_ok (i : nat) (rm : list nat) : Prop :=
  NoDup rm /\ forall x, In x rm -> exists a b, r2 = a ++ x :: b /\ (S (length a) <= i)%nat.

Lemma regain_ok : forall fuel i rm, rm_ok i rm -> Forall good (regain eps D d C L n r1_delta r2_delta rd2 receiving discard d_excess l_excess fuel i rm (demand d rm)).
Proof using All.
  induction fuel as [|fuel IH]; intros i rm [Hrm Hrmx].
  all: assert (Hincl : incl rm r2) by (intros x Hx; destruct (Hrmx x Hx) as (a & b & -> & _); apply in_or_app; right; now left).
  all: set (keep := fun x => negb (mem x rm)); set (left2 := filter keep r2).
  all: assert (H0 : ~ In 0%nat rm) by (intros X; apply Hincl, Hr2c in X; lia).
  all: assert (EL : filter (fun x => negb (mem x rm)) (rd_route rd2) = wrap left2).
  1, 3: rewrite (proj1 Hx2); unfold wrap; cbn [filter]; apply mem_not in H0; rewrite H0; cbn [negb]; f_equal; rewrite filter_app; cbn [filter]; rewrite H0; reflexivity.
  all: destruct (cheapest_spec D n left2) as (w1 & w2 & E1 & E2 & E3).
  all: cbn [regain]; rewrite EL, E2; set (new := route_cost D (w1 ++ [n] ++ w2)) in *.
  all: replace (route_cost D left2 + (new - route_cost D left2)) with new by lia.
  all: match goal with |- context [if ?b then _ else _] => destruct b eqn:Eb end.
  all: try (constructor; fail).
  1, 2: apply andb_prop in Eb; destruct Eb as [Eb1 Eb2].
  1, 2: match goal with |- context [if ?b then [] else _] => destruct b; [constructor|] end.
  1, 2: match goal with |- context [do_redistribute_move ?e ?r ?v ?D ?d ?C ?L ?fi ?bd ?lv] => destruct (do_redistribute_move e r v D d C L fi bd lv) as [[rds dl]|] eqn:Em; [|constructor];
    destruct (redistribute_result e D d C L fi bd lv rm rcv r v rds dl (or_intror Htri) eq_refl Hrcv Em) as (rds'' & rs' & -> & R1 & R2 & R3 & _ & R5 & _) end.
  1, 2: assert (HP : Permutation r2 (rm ++ left2)).
  1, 3: apply NoDup_Permutation; [exact Hr2|apply NoDup_app_intro; [exact Hrm|apply NoDup_filter, Hr2|intros x X Y; unfold left2, keep in Y; apply filter_In in Y; destruct Y as [_ Y]; apply mem_in in X; rewrite X in Y; discriminate]|];
    intros x; rewrite in_app_iff; unfold left2, keep; rewrite filter_In; split; [intros X; destruct (mem x rm) eqn:Em'; [left; now apply mem_in|right; auto]|intros [X|X]; [apply Hincl, X|tauto]].
  1, 2: assert (Hdem : demand d left2 = demand d r2 - demand d rm) by (rewrite (demand_perm d _ _ HP), demand_app; lia).
  1, 2: constructor; [exists (w1 ++ [n] ++ w2); split; [|split; [|split]]|].
  - rewrite E1. split; [cbn [rd_route]; apply insert_wrap|]. split; [reflexivity|]. intros HC. cbn [rd_demand]. f_equal. rewrite (exact_dem D d C r2 rd2 Hx2 HC), demand_mid. rewrite E1, demand_app in Hdem. lia.
  - apply (Permutation_NoDup (Permutation_middle w1 w2 n)). constructor; [|rewrite <- E1; apply NoDup_filter, Hr2]. rewrite <- E1. intros X. apply filter_In in X. tauto.
  - intros x X. rewrite !in_app_iff in X. cbn in X. assert (Y : x = n \/ In x left2) by (rewrite E1, in_app_iff; intuition). destruct Y as [->|Y]; [exact Hn|]. apply filter_In in Y. apply Hr2c. tauto.
  - assert (0 <= demand d rm) by (apply dem_nn, Hd). split; apply within_truthy.
    + intros c Ec. rewrite Ec in Hdx. rewrite demand_mid. rewrite E1, demand_app in Hdem. destruct (truthy d_excess); lia.
    + intros l El. rewrite El in Hlx. fold new. assert (Hx : new <= rd_cost rd2 + r2_delta).
      { rewrite (proj1 (proj2 Hx2)), Hdelta. replace (route_cost D r2 + (route_cost D (m1 ++ [n] ++ m2) - route_cost D r2)) with (route_cost D (m1 ++ [n] ++ m2)) by lia.
        unfold new. etransitivity; [apply (E3 (filter keep m1) (filter keep m2)); unfold left2; rewrite Hm12; apply filter_app|].
        etransitivity; [apply (filter_shorter D keep m1 Htri [] ([n] ++ filter keep m2))|]. cbn [app].
        pose proof (filter_shorter D keep m2 Htri (m1 ++ [n]) []) as Hf. rewrite !app_nil_r, <- !app_assoc in Hf. exact Hf. }
      destruct (truthy l_excess); lia.
  - cbn [tl]. assert (HN : NoDup (concat rs')) by (apply (Permutation_NoDup (Permutation_sym R3)), Hdis; assumption).
    assert (HI : forall x, In x (concat rs') -> (1 <= x < N)%nat) by (intros x X; apply (Permutation_in _ R3), in_app_or in X; destruct X as [X|X]; [apply Hr2c, Hincl, X|apply Hrcvc, X]).
    specialize (R5 Hrcvf). clear - R1 HN HI R5. revert HN HI R5. induction R1 as [|q rd rs' rds'' Hq R1 IH]; intros HN HI HF; constructor.
    + exists q. cbn [concat] in HN. split; [exact Hq|]. split; [apply (nodup_l _ _ HN)|]. split; [intros x X; apply HI; cbn [concat]; apply in_or_app; now left|]. now inversion HF.
    + apply IH; [cbn [concat] in HN; apply (nodup_r _ _ HN)|intros x X; apply HI; cbn [concat]; apply in_or_app; now right|now inversion HF].
  - rewrite E1. split; [cbn [rd_route]; apply insert_wrap|]. split; [reflexivity|]. intros HC. cbn [rd_demand]. f_equal. rewrite (exact_dem D d C r2 rd2 Hx2 HC), demand_mid. rewrite E1, demand_app in Hdem. lia.
  - apply (Permutation_NoDup (Permutation_middle w1 w2 n)). constructor; [|rewrite <- E1; apply NoDup_filter, Hr2]. rewrite <- E1. intros X. apply filter_In in X. tauto.
  - intros x X. rewrite !in_app_iff in X. cbn in X. assert (Y : x = n \/ In x left2) by (rewrite E1, in_app_iff; intuition). destruct Y as [->|Y]; [exact Hn|]. apply filter_In in Y. apply Hr2c. tauto.
  - assert (0 <= demand d rm) by (apply dem_nn, Hd). split; apply within_truthy.
    + intros c Ec. rewrite Ec in Hdx. rewrite demand_mid. rewrite E1, demand_app in Hdem. destruct (truthy d_excess); lia.
    + intros l El. rewrite El in Hlx. fold new. assert (Hx : new <= rd_cost rd2 + r2_delta).
      { rewrite (proj1 (proj2 Hx2)), Hdelta. replace (route_cost D r2 + (route_cost D (m1 ++ [n] ++ m2) - route_cost D r2)) with (route_cost D (m1 ++ [n] ++ m2)) by lia.
        unfold new. etransitivity; [apply (E3 (filter keep m1) (filter keep m2)); unfold left2; rewrite Hm12; apply filter_app|].
        etransitivity; [apply (filter_shorter D keep m1 Htri [] ([n] ++ filter keep m2))|]. cbn [app].
        pose proof (filter_shorter D keep m2 Htri (m1 ++ [n]) []) as Hf. rewrite !app_nil_r, <- !app_assoc in Hf. exact Hf. }
      destruct (truthy l_excess); lia.
  - cbn [tl]. assert (HN : NoDup (concat rs')) by (apply (Permutation_NoDup (Permutation_sym R3)), Hdis; assumption).
    assert (HI : forall x, In x (concat rs') -> (1 <= x < N)%nat) by (intros x X; apply (Permutation_in _ R3), in_app_or in X; destruct X as [X|X]; [apply Hr2c, Hincl, X|apply Hrcvc, X]).
    specialize (R5 Hrcvf). clear - R1 HN HI R5. revert HN HI R5. induction R1 as [|q rd rs' rds'' Hq R1 IH]; intros HN HI HF; constructor.
    + exists q. cbn [concat] in HN. split; [exact Hq|]. split; [apply (nodup_l _ _ HN)|]. split; [intros x X; apply HI; cbn [concat]; apply in_or_app; now left|]. now inversion HF.
    + apply IH; [cbn [concat] in HN; apply (nodup_r _ _ HN)|intros x X; apply HI; cbn [concat]; apply in_or_app; now right|now inversion HF].
  - match goal with |- context [if ?b then _ else _] => destruct b; [|constructor] end.
    apply Forall_flat_map, Forall_forall. intros k Hk. apply in_rev in Hk. unfold range in Hk. apply in_seq in Hk. rewrite (proj1 Hx2) in *.
    replace (demand d rm + d (at_ (wrap r2) k)) with (demand d (rm ++ [at_ (wrap r2) k])) by (rewrite demand_app, demand_cons, demand_nil; lia).
    apply IH. clear IH. assert (Hwl : length (wrap r2) = S (S (length r2))) by (unfold wrap; cbn [length]; rewrite app_length; cbn [length]; lia). rewrite Hwl in Hk.
    destruct k as [|k]; [lia|]. assert (Hk' : (k < length r2)%nat) by lia. destruct (nth_split r2 0%nat Hk') as (a & b & Ea & El).
    assert (Eat : at_ (wrap r2) (S k) = nth k r2 0%nat) by (unfold at_, wrap; cbn [nth]; apply app_nth1; lia). rewrite Eat. set (x := nth k r2 0%nat) in *. split.
    + apply NoDup_app_intro; [exact Hrm|repeat constructor; easy|]. intros y Hy [<-|[]]. destruct (Hrmx x Hy) as (a' & b' & Ea' & Hl').
      destruct (split_unique r2 a b a' b' x Hr2 Ea Ea') as [-> _]. lia.
    + intros y Hy. apply in_app_or in Hy. destruct Hy as [Hy|[<-|[]]].
      * destruct (Hrmx y Hy) as (a' & b' & Ea' & Hl'). exists a', b'. split; [exact Ea'|lia].
      * exists a, b. split; [exact Ea|lia].
Qed.

Lemma regain_all_ok : Forall good (regain_all eps D d C L n r1_delta r2_delta rd2 receiving discard d_excess l_excess).
Proof using All.
  unfold regain_all. apply Forall_flat_map, Forall_forall. intros k Hk. apply in_rev in Hk. unfold range in Hk. apply in_seq in Hk. rewrite (proj1 Hx2) in *.
  replace (d (at_ (wrap r2) k)) with (demand d [at_ (wrap r2) k]) by (rewrite demand_cons, demand_nil; lia).
  apply regain_ok. assert (Hwl : length (wrap r2) = S (S (length r2))) by (unfold wrap; cbn [length]; rewrite app_length; cbn [length]; lia). rewrite Hwl in Hk.
  destruct k as [|k]; [lia|]. assert (Hk' : (k < length r2)%nat) by lia. destruct (nth_split r2 0%nat Hk') as (a & b & Ea & El).
  assert (Eat : at_ (wrap r2) (S k) = nth k r2 0%nat) by (unfold at_, wrap; cbn [nth]; apply app_nth1; lia). rewrite Eat. split; [repeat constructor; easy|].
  intros y [<-|[]]. exists a, b. split; [exact Ea|lia].
Qed.
End Moved.

(** ** All moves between the routes of a solution *)
Variable rs : list (list nat).
Hypothesis Hsome : serves_some N D d C L eps rs.
Let rds := from_routes (map wrap rs) D d.

Lemma rds_exact : Forall2 (exact_rd D d C) rs rds.
Proof using All.
  unfold rds. rewrite from_routes_spec by exact Hd0. clear. induction rs; cbn [map]; constructor; auto. split; [reflexivity|]. split; reflexivity.
Qed.
Lemma rds_length : length rds = length rs.
Proof using All. symmetry. eapply f2_len, rds_exact. Qed.
Lemma rds_nth i : (i < length rs)%nat -> exact_rd D d C (nth i rs []) (nth i rds empty_rd).
Proof using All.
  apply f2_nth, rds_exact.
Qed.
Lemma rs_nth i : (i < length rs)%nat -> NoDup (nth i rs []) /\ (forall x, In x (nth i rs []) -> (1 <= x < N)%nat) /\ feasible D d C L eps eps (nth i rs []).
Proof using All.
  intros Hi. destruct Hsome as (H1 & H2 & H3). assert (Hin : In (nth i rs []) rs) by (apply nth_In, Hi). split; [|split].
  - apply in_split in Hin. destruct Hin as (a & b & E). rewrite E, concat_app in H1. apply nodup_r in H1. cbn [concat] in H1. apply nodup_l in H1. exact H1.
  - intros x Hx. apply H2, in_concat. eauto.
  - rewrite Forall_forall in H3. auto.
Qed.

(** The routes a redistribution may use: they share nobody with route 2 *)
Lemma count_flat (g : nat -> list nat) x l : count_occ Nat.eq_dec (flat_map g l) x = list_sum (map (fun i => count_occ Nat.eq_dec (g i) x) l).
Proof using All. induction l as [|i l IH]; [reflexivity|]. cbn [flat_map map list_sum fold_right]. rewrite count_occ_app, IH. reflexivity. Qed.
Lemma concat_flat : forall l : list (list nat), concat l = flat_map (fun i => nth i l []) (range 0 (length l)).
Proof using All.
  intros l. unfold range. rewrite Nat.sub_0_r. rewrite flat_map_concat_map. f_equal. clear. induction l as [|r l IH]; [reflexivity|]. cbn [length seq map nth]. f_equal.
  rewrite <- seq_shift, map_map. rewrite IH at 1. reflexivity.
Qed.
Lemma sum_one i0 A l : NoDup l -> In i0 l -> list_sum (map (fun i => if Nat.eqb i i0 then A else 0%nat) l) = A.
Proof using All.
  induction l as [|i l IH]; [intros _ []|]. intros Hn [->|Hi]; inversion Hn; subst; cbn [map list_sum fold_right].
  - rewrite Nat.eqb_refl. enough (list_sum (map (fun i => if Nat.eqb i i0 then A else 0%nat) l) = 0%nat) by (unfold list_sum in *; lia).
    clear - H1. induction l as [|j l IH]; [reflexivity|]. cbn [map list_sum fold_right]. destruct (Nat.eqb_spec j i0) as [->|]; [exfalso; apply H1; now left|]. apply IH. intros X. apply H1. now right.
  - destruct (Nat.eqb_spec i i0) as [->|]; [contradiction|]. specialize (IH H2 Hi). unfold list_sum in *. lia.
Qed.
Lemma sum_le (g h : nat -> nat) l : (forall i, In i l -> (g i <= h i)%nat) -> (list_sum (map g l) <= list_sum (map h l))%nat.
Proof using All. induction l as [|i l IH]; intros H; cbn [map list_sum fold_right]; [lia|]. assert (g i <= h i)%nat by (apply H; now left). assert (list_sum (map g l) <= list_sum (map h l))%nat by (apply IH; intros; apply H; now right). unfold list_sum in *. lia. Qed.
Lemma sum_add (g h : nat -> nat) l : list_sum (map (fun i => (g i + h i)%nat) l) = (list_sum (map g l) + list_sum (map h l))%nat.
Proof using All. induction l as [|i l IH]; [reflexivity|]. cbn [map list_sum fold_right] in *. unfold list_sum in *. lia. Qed.

Lemma disjoint_rest ri1 ri2 (ok : nat -> bool) a n b rm : (ri1 < length rs)%nat -> (ri2 < length rs)%nat -> ri1 <> ri2 -> nth ri1 rs [] = a ++ n :: b ->
  NoDup rm -> incl rm (nth ri2 rs []) ->
  NoDup (rm ++ concat (flat_map (fun ri => if negb (Nat.eqb ri ri1) && negb (Nat.eqb ri ri2) && ok ri then [nth ri rs []] else []) (range 0 (length rs)) ++ [a ++ b; []])).
Proof using All.
  intros H1 H2 H12 E Hrm Hincl. apply (NoDup_count_occ Nat.eq_dec). intros x. rewrite count_occ_app, concat_app, count_occ_app. cbn [concat]. rewrite !app_nil_r.
  assert (Ec : concat (flat_map (fun ri => if negb (Nat.eqb ri ri1) && negb (Nat.eqb ri ri2) && ok ri then [nth ri rs []] else []) (range 0 (length rs))) =
               flat_map (fun ri => if negb (Nat.eqb ri ri1) && negb (Nat.eqb ri ri2) && ok ri then nth ri rs [] else []) (range 0 (length rs))).
  { clear. induction (range 0 (length rs)) as [|i l IH]; [reflexivity|]. cbn [flat_map]. rewrite concat_app, IH. f_equal. destruct (_ && _); [apply app_nil_r|reflexivity]. }
  rewrite Ec, count_flat.
  assert (Hlim : (count_occ Nat.eq_dec (concat rs) x <= 1)%nat) by (apply (NoDup_count_occ Nat.eq_dec), Hsome).
  rewrite concat_flat, count_flat in Hlim.
  assert (HR : NoDup (range 0 (length rs))) by apply seq_NoDup.
  assert (I1 : In ri1 (range 0 (length rs))) by (unfold range; apply in_seq; lia). assert (I2 : In ri2 (range 0 (length rs))) by (unfold range; apply in_seq; lia).
  set (c := fun i => count_occ Nat.eq_dec (nth i rs []) x) in *.
  assert (A1 : (count_occ Nat.eq_dec (a ++ b) x <= c ri1)%nat) by (unfold c; rewrite E, !count_occ_app; cbn; destruct (Nat.eq_dec n x); lia).
  assert (A2 : (count_occ Nat.eq_dec rm x <= c ri2)%nat).
  { unfold c. destruct (in_dec Nat.eq_dec x rm) as [X|X].
    - assert (count_occ Nat.eq_dec rm x <= 1)%nat by (apply (NoDup_count_occ Nat.eq_dec), Hrm). apply Hincl, (count_occ_In Nat.eq_dec) in X. lia.
    - apply (count_occ_not_In Nat.eq_dec) in X. lia. }
  rewrite <- (sum_one ri1 (count_occ Nat.eq_dec (a ++ b) x) _ HR I1), <- (sum_one ri2 (count_occ Nat.eq_dec rm x) _ HR I2).
  match goal with |- (?s + (?t + ?u) <= 1)%nat => assert (s + (t + u) <= list_sum (map c (range 0 (length rs))))%nat; [|lia] end.
  rewrite <- !sum_add. apply sum_le. intros i _. destruct (Nat.eqb_spec i ri1) as [E1|N1]; destruct (Nat.eqb_spec i ri2) as [E2|N2]; cbn [negb andb]; try congruence.
  - subst i. cbn [count_occ]. lia.
  - subst i. cbn [count_occ]. lia.
  - destruct (ok i); unfold c; cbn [count_occ]; lia.
Qed.

Lemma slack_exact ri1 ri2 (ok : routedata -> bool) rest rd' : exact_rd D d C rest rd' ->
  Forall2 (exact_rd D d C) (flat_map (fun ri => if negb (Nat.eqb ri ri1) && negb (Nat.eqb ri ri2) && ok (nth ri rds empty_rd) then [nth ri rs []] else []) (range 0 (length rs)) ++ [rest; []])
    (flat_map (fun ri => if negb (Nat.eqb ri ri1) && negb (Nat.eqb ri ri2) && ok (nth ri rds empty_rd) then [nth ri rds empty_rd] else []) (range 0 (length rds)) ++ [rd'; empty_rd]).
Proof using All.
  intros Hx. rewrite rds_length. apply Forall2_app; [|constructor; [exact Hx|constructor; [apply exact_nil|constructor]]].
  assert (H : forall i, In i (range 0 (length rs)) -> exact_rd D d C (nth i rs []) (nth i rds empty_rd)) by (intros i Hi; unfold range in Hi; apply in_seq in Hi; apply rds_nth; lia).
  revert H. induction (range 0 (length rs)) as [|i l IH]; intros H; cbn [flat_map]; [constructor|]. apply Forall2_app; [|apply IH; intros; apply H; now right].
  destruct (_ && _); constructor; [|constructor]. apply H. now left.
Qed.

Lemma relax_move_ok discard ri1 i ri2 : (ri1 < length rs)%nat -> (ri2 < length rs)%nat -> ri1 <> ri2 -> In i (range 1 (length (rd_route (nth ri1 rds empty_rd)) - 1)) ->
  Forall good (relax_move eps D d C L discard rds ri1 i ri2).
Proof using All.
  intros H1 H2 H12 Hi. pose proof (rds_nth ri1 H1) as X1. pose proof (rds_nth ri2 H2) as X2.
  destruct (rs_nth ri1 H1) as (N1 & C1 & F1). destruct (rs_nth ri2 H2) as (N2 & C2 & F2).
  unfold relax_move. rewrite (proj1 X1) in *. rewrite (proj1 X2).
  assert (Hwl : length (wrap (nth ri1 rs [])) = S (S (length (nth ri1 rs [])))) by (unfold wrap; cbn [length]; rewrite app_length; cbn [length]; lia).
  unfold range in Hi. apply in_seq in Hi. rewrite Hwl in Hi. destruct i as [|k]; [lia|]. assert (Hk : (k < length (nth ri1 rs []))%nat) by lia.
  destruct (nth_split (nth ri1 rs []) 0%nat Hk) as (a & b & E & El). set (n := nth k (nth ri1 rs []) 0%nat) in *.
  rewrite E. replace (S k - 1)%nat with (length a) by lia. rewrite (at_wrap_pre a (n :: b) (length a)) by reflexivity.
  assert (En : at_ (wrap (a ++ n :: b)) (S k) = n) by (rewrite <- El; apply wrap_at). rewrite En.
  assert (Eb : at_ (wrap (a ++ n :: b)) (S k + 1) = hd 0%nat b).
  { change (a ++ n :: b) with (a ++ [n] ++ b). rewrite app_assoc. apply at_wrap_suf. rewrite app_length. cbn. lia. }
  rewrite Eb. destruct (cheapest_spec D n (nth ri2 rs [])) as (m1 & m2 & M1 & M2 & M3). rewrite M2. cbn [snd].
  set (r1_delta := D (last a 0%nat) (hd 0%nat b) - D (last a 0%nat) n - D n (hd 0%nat b)). set (r2_delta := route_cost D (m1 ++ [n] ++ m2) - route_cost D (nth ri2 rs [])).
  destruct (_ <? _); [|constructor].
  assert (Hn : (1 <= n < N)%nat) by (apply C1; rewrite E; apply in_or_app; right; now left).
  assert (Xrest : exact_rd D d C (a ++ b) (mkrd (firstn (S k) (wrap (a ++ n :: b)) ++ skipn (S k + 1) (wrap (a ++ n :: b))) (rd_cost (nth ri1 rds empty_rd) + r1_delta) (Some (odem (nth ri1 rds empty_rd) - d n)))).
  { split; [cbn [rd_route]; rewrite <- El; apply delete_wrap|]. split.
    - cbn [rd_cost]. rewrite (proj1 (proj2 X1)), E. change (a ++ n :: b) with (a ++ [n] ++ b). rewrite rc_mid, rc_split. unfold r1_delta. lia.
    - intros HC. cbn [rd_demand]. rewrite (exact_dem _ _ _ _ _ X1 HC), E. change (a ++ n :: b) with (a ++ [n] ++ b). rewrite demand_mid, demand_app. f_equal. lia. }
  assert (Frest : feasible D d C L eps eps (a ++ b)) by (apply (remove_feasible D d C L eps eps a n b Htri (Hd n)); rewrite E in F1; exact F1).
  assert (Hn2 : ~ In n (nth ri2 rs [])).
  { intros X. pose proof (disjoint_rest ri2 ri1 (fun _ => true)) as HX. apply in_split in X. destruct X as (u & v & Eu).
    destruct Hsome as (HS & _). assert (HC := proj1 (NoDup_count_occ Nat.eq_dec _) HS n). rewrite concat_flat, count_flat in HC.
    assert (HR : NoDup (range 0 (length rs))) by apply seq_NoDup.
    assert (I1 : In ri1 (range 0 (length rs))) by (unfold range; apply in_seq; lia). assert (I2 : In ri2 (range 0 (length rs))) by (unfold range; apply in_seq; lia).
    assert (list_sum (map (fun i => ((if Nat.eqb i ri1 then 1 else 0) + (if Nat.eqb i ri2 then 1 else 0))%nat) (range 0 (length rs))) <= 1)%nat.
    { etransitivity; [|exact HC]. apply sum_le. intros i _. destruct (Nat.eqb_spec i ri1) as [E1|]; destruct (Nat.eqb_spec i ri2) as [E2|]; [congruence| | |lia].
      - subst i. rewrite E. assert (In n (a ++ n :: b)) as I by (apply in_or_app; right; now left). apply (count_occ_In Nat.eq_dec) in I. lia.
      - subst i. rewrite Eu. assert (In n (u ++ n :: v)) as I by (apply in_or_app; right; now left). apply (count_occ_In Nat.eq_dec) in I. lia. }
    rewrite sum_add, (sum_one ri1 1 _ HR I1), (sum_one ri2 1 _ HR I2) in H. lia. }
  set (d_excess := match truthy C with Some c => if c <? odem (nth ri2 rds empty_rd) + d n - eps then Some (odem (nth ri2 rds empty_rd) + d n - c) else None | None => None end).
  set (l_excess := match truthy L with Some l => if l <? rd_cost (nth ri2 rds empty_rd) + r2_delta - eps then Some (rd_cost (nth ri2 rds empty_rd) + r2_delta - l) else None | None => None end).
  assert (Hdx : match truthy C with
                | Some c => match truthy d_excess with Some x => x = demand d (nth ri2 rs []) + d n - c | None => demand d (nth ri2 rs []) + d n <= c + eps end
                | None => True end).
  { unfold d_excess. destruct (truthy C) as [c|] eqn:EC; [|exact I]. rewrite (exact_dem _ _ _ _ _ X2 (truthy_set _ _ EC)).
    destruct (Z.ltb_spec c (demand d (nth ri2 rs []) + d n - eps)) as [H|H]; cbn [truthy]; [|lia]. destruct (Z.eqb_spec (demand d (nth ri2 rs []) + d n - c) 0); [lia|reflexivity]. }
  assert (Hlx : match truthy L with
                | Some l => match truthy l_excess with Some x => x = rd_cost (nth ri2 rds empty_rd) + r2_delta - l | None => rd_cost (nth ri2 rds empty_rd) + r2_delta <= l + eps end
                | None => True end).
  { unfold l_excess. destruct (truthy L) as [l|] eqn:EL; [|exact I].
    destruct (Z.ltb_spec l (rd_cost (nth ri2 rds empty_rd) + r2_delta - eps)) as [H|H]; cbn [truthy]; [|lia]. destruct (Z.eqb_spec (rd_cost (nth ri2 rds empty_rd) + r2_delta - l) 0); [lia|reflexivity]. }
  assert (HG : Forall good (regain_all eps D d C L n r1_delta r2_delta (nth ri2 rds empty_rd)
            (with_slack eps d C rds ri1 ri2 (mkrd (firstn (S k) (wrap (a ++ n :: b)) ++ skipn (S k + 1) (wrap (a ++ n :: b))) (rd_cost (nth ri1 rds empty_rd) + r1_delta) (Some (odem (nth ri1 rds empty_rd) - d n)))) discard d_excess l_excess)).
  { set (min_d := match map d (slice 1 (length (rd_route (nth ri2 rds empty_rd)) - 1) (rd_route (nth ri2 rds empty_rd))) with [] => 0 | x :: t => fold_left Z.min t x end).
    set (ok := fun rd => match truthy C with Some c => min_d <? c - odem rd + eps | None => true end).
    apply (regain_all_ok n r1_delta r2_delta (nth ri2 rs []) (nth ri2 rds empty_rd) m1 m2 _
             (flat_map (fun ri => if negb (Nat.eqb ri ri1) && negb (Nat.eqb ri ri2) && ok (nth ri rds empty_rd) then [nth ri rs []] else []) (range 0 (length rs)) ++ [a ++ b; []])); auto.
    - exact (slack_exact ri1 ri2 ok (a ++ b) _ Xrest).
    - apply Forall_app. split; [|constructor; [exact Frest|constructor; [exact (feasible_nil _ F1)|constructor]]].
      apply Forall_flat_map, Forall_forall. intros ri Hri. unfold range in Hri. apply in_seq in Hri. destruct (_ && _); constructor; [|constructor]. apply (rs_nth ri). lia.
    - intros x X. rewrite concat_app, in_app_iff in X. destruct X as [X|X].
      + apply in_concat in X. destruct X as (q & Hq & X). apply in_flat_map in Hq. destruct Hq as (ri & Hri & Hq). unfold range in Hri. apply in_seq in Hri.
        destruct (_ && _) in Hq; [destruct Hq as [<-|[]]|destruct Hq]. apply (rs_nth ri); [lia|exact X].
      + cbn [concat] in X. rewrite !app_nil_r in X. apply C1. rewrite E. apply in_app_or in X. apply in_or_app. destruct X; [now left|right; now right].
    - intros rm Hrm Hincl. apply (disjoint_rest ri1 ri2 (fun ri => ok (nth ri rds empty_rd)) a n b rm); assumption. }
  destruct (truthy d_excess) as [x|] eqn:Ed; [exact HG|]. destruct (truthy l_excess) as [x|] eqn:Ex; [exact HG|]. clear HG.
  constructor; [|constructor; [|constructor]].
  - exists (a ++ b). split; [exact Xrest|]. split; [rewrite E in N1; apply (NoDup_remove_1 _ _ _ N1)|]. split; [|exact Frest].
    intros x X. apply C1. rewrite E. apply in_app_or in X. apply in_or_app. destruct X; [now left|right; now right].
  - exists (m1 ++ [n] ++ m2). split; [split; [|split]|split; [|split]].
    + cbn [rd_route]. rewrite M1. apply insert_wrap.
    + cbn [rd_cost]. rewrite (proj1 (proj2 X2)). unfold r2_delta. lia.
    + intros HC. cbn [rd_demand]. rewrite (exact_dem _ _ _ _ _ X2 HC), M1, demand_mid, demand_app. f_equal. lia.
    + apply (Permutation_NoDup (Permutation_middle m1 m2 n)). rewrite <- M1. constructor; assumption.
    + intros x X. rewrite !in_app_iff in X. cbn in X. assert (Y : x = n \/ In x (nth ri2 rs [])) by (rewrite M1, in_app_iff; intuition). destruct Y as [->|Y]; [exact Hn|apply C2, Y].
    + split; apply within_truthy.
      * intros c Ec. rewrite Ec in Hdx. rewrite M1, demand_app in Hdx. rewrite demand_mid. lia.
      * intros l El'. rewrite El' in Hlx. rewrite (proj1 (proj2 X2)) in Hlx. unfold r2_delta in Hlx. lia.
Qed.

Lemma relaxations_ok discard : Forall good (relaxations eps D d C L discard (map wrap rs)).
Proof using All.
  unfold relaxations. fold rds. apply Forall_flat_map, Forall_forall. intros ri1 H1. apply Forall_flat_map, Forall_forall. intros i Hi. apply Forall_flat_map, Forall_forall. intros ri2 H2.
  unfold range in H1, H2. apply in_seq in H1. apply in_seq in H2. rewrite rds_length in *.
  destruct (Nat.eqb_spec ri1 ri2) as [->|H12]; [constructor|]. apply relax_move_ok; auto; lia.
Qed.
End Relax.
