(** * Cheapest insertion: what the main loop keeps, for any insertion callback *)
From Verif Require Import Spec Spec_inter Spec_savings Spec_cins PyBase M_util M_intra M_psavings M_cins P_base P_driver P_cins.
From Coq Require Import ZifyBool ZifyNat Lia.

Lemma set_nth_concat (k : nat) : forall (x : list nat) os, (k < length os)%nat -> Permutation (nth k os [] ++ concat (set_nth k x os)) (x ++ concat os).
Proof.
  induction k as [|k IH]; intros x os H; destruct os as [|o os']; cbn in *; try lia.
  - rewrite !app_assoc. apply Permutation_app_tail, Permutation_app_comm.
  - rewrite Permutation_app_swap_app, (IH x os') by lia. rewrite Permutation_app_swap_app. reflexivity.
Qed.
Lemma set_nth_in {A} (k : nat) (x : A) l : (k < length l)%nat -> In x (set_nth k x l).
Proof. intro H. pose proof (set_nth_same k x x l H) as E. rewrite <- E at 1. apply nth_In. rewrite set_nth_length. exact H. Qed.
Lemma set_nth_same_id {A} (k : nat) (z : A) : forall l, (k < length l)%nat -> set_nth k (nth k l z) l = l.
Proof. induction k as [|k IH]; intros l H; destruct l; cbn in *; try lia; auto. f_equal. apply IH. lia. Qed.
Lemma set_nth_twice {A} (k : nat) (x y : A) : forall l, set_nth k y (set_nth k x l) = set_nth k y l.
Proof. induction k as [|k IH]; intros [|z l]; cbn; auto. f_equal. apply IH. Qed.
Lemma set_nth_Forall {A} (P : A -> Prop) (k : nat) (x : A) : P x -> forall l, Forall P l -> Forall P (set_nth k x l).
Proof. intro Hx. induction k as [|k IH]; intros [|z l] H; cbn; auto; inversion H; subst; constructor; auto. Qed.
Lemma Forall2_nth {A B} (R : A -> B -> Prop) (k : nat) (a : A) (b : B) : forall l l', Forall2 R l l' -> (k < length l)%nat -> R (nth k l a) (nth k l' b).
Proof. induction k as [|k IH]; intros l l' H Hk; inversion H; subst; cbn in *; try lia; auto. apply IH; auto. lia. Qed.
Lemma Forall2_length2 {A B} (R : A -> B -> Prop) l l' : Forall2 R l l' -> length l = length l'.
Proof. induction 1; cbn; congruence. Qed.

Lemma insert_perm k r' c os ds u : (k < length os)%nat -> Permutation r' (c :: nth k os []) -> NoDup u -> In c u ->
  Permutation (concat (set_nth k r' os ++ ds) ++ del c u) (concat (os ++ ds) ++ u).
Proof.
  intros Hk Hp Hn Hc. pose proof (set_nth_concat k r' os Hk) as SC.
  assert (A : Permutation (concat (set_nth k r' os)) (c :: concat os)).
  { apply (Permutation_app_inv_l (nth k os [])). eapply Permutation_trans; [exact SC|]. eapply Permutation_trans; [apply Permutation_app_tail, Hp|]. cbn. apply Permutation_middle. }
  rewrite !concat_app. eapply Permutation_trans; [apply Permutation_app_tail, Permutation_app_tail, A|]. cbn.
  eapply Permutation_trans; [apply Permutation_middle|]. apply Permutation_app_head, Permutation_sym, del_perm; auto.
Qed.
Lemma reseed_perm k r2 b os ds u : (k < length os)%nat -> NoDup u -> NoDup b -> (forall c, In c b -> In c u) ->
  Permutation (concat (set_nth k b (set_nth k r2 os) ++ ds ++ [r2]) ++ del_all b u) (concat (set_nth k r2 os ++ ds) ++ u).
Proof.
  intros Hk Hn Hb Hi. assert (Hk2 : (k < length (set_nth k r2 os))%nat) by (rewrite set_nth_length; exact Hk).
  pose proof (set_nth_concat k b (set_nth k r2 os) Hk2) as SC. rewrite (set_nth_same k r2 [] os Hk) in SC.
  rewrite !concat_app. cbn [concat]. rewrite app_nil_r.
  set (A := concat (set_nth k b (set_nth k r2 os))) in *. set (O := concat (set_nth k r2 os)) in *.
  set (B := concat ds).
  assert (H1 : Permutation (A ++ B ++ r2) (b ++ O ++ B)).
  { rewrite app_assoc. apply (Permutation_trans (Permutation_app_comm (A ++ B) r2)). rewrite !app_assoc. apply Permutation_app_tail, SC. }
  apply (Permutation_trans (Permutation_app_tail (del_all b u) H1)).
  apply Permutation_sym. apply (Permutation_trans (Permutation_app_head (O ++ B) (del_all_perm b u Hn Hb Hi))).
  rewrite !app_assoc. apply Permutation_app_tail. rewrite <- (app_assoc b O B). apply Permutation_app_comm.
Qed.

Lemma bounds N (l u : list nat) x : Permutation (l ++ u) (seq 1 (N - 1)) -> In x l \/ In x u -> (1 <= x < N)%nat.
Proof. intros P H. apply (in_or_app l u) in H. apply (Permutation_in _ P), in_seq in H. lia. Qed.
Lemma nodups N (l u : list nat) : Permutation (l ++ u) (seq 1 (N - 1)) -> NoDup (l ++ u).
Proof. intro P. apply (Permutation_NoDup (Permutation_sym P)), seq_NoDup. Qed.
Lemma nodup_mid (a b c : list nat) : NoDup (a ++ b ++ c) -> NoDup b.
Proof. induction a as [|x t IH]; cbn; intro H. induction b; [constructor|]. inversion H; subst. constructor; auto. rewrite in_app_iff in *. tauto. inversion H; auto. Qed.
Lemma nodup_app_sep (l u : list nat) x : NoDup (l ++ u) -> In x u -> ~ In x l.
Proof. induction l as [|y t IH]; cbn; intros H Hu; [tauto|]. inversion H; subst. intros [<-|H4]. apply H2, in_or_app; auto. eapply IH; eauto. Qed.
Lemma nodup_app_r {A} (l u : list A) : NoDup (l ++ u) -> NoDup u.
Proof. induction l as [|y t IH]; cbn; intros H; auto. inversion H; auto. Qed.

Section Loop.
Variables ceps seps : Z.
Variable N : nat.
Variable D : matrix.
Variable d : demands.
Variables C L : limit.
Variable strain : nat -> nat -> nat -> Z * Z.
Variable callback : insertion -> rdata -> option (option (rdata * list (nat * nat))).
Variable ident : nat -> Z.
Variable S : list seed.

(** [rd] describes the route [r] *)
Definition rd_ok (rd : rdata) (r : list nat) : Prop :=
  r_route rd = 0%nat :: r ++ [0%nat] /\ r_cost rd = route_cost D r /\ (is_set C = true -> r_cap rd = demand d r).
Definition dd (c : nat) : Z := if is_set C then d c else 0.
Definition ins_of (a c b : nat) : insertion := mkins c a b (delta D a c b) (dd c).
Definition entry_for (a c b : nat) (e : entry) : Prop :=
  en_ins e = ins_of a c b /\ entry_pref e = (- fst (strain a c b), snd (strain a c b), delta D a c b - D 0%nat c - D c 0%nat).
Definition entry_ok (e : entry) : Prop := exists a c b, entry_for a c b e.

Lemma is_set_within (lim : limit) eps x : is_set lim = false -> within lim eps x.
Proof. unfold is_set, truthy, within. destruct lim as [c|]; auto. destruct (Z.eqb_spec c 0); try easy. Qed.

Lemma offer_spec rd a b n c : match offer ceps seps D d C L strain ident rd a b n c with
  | Some e => entry_for a c b e
  | None => ~ (within C ceps (r_cap rd + dd c) /\ within L seps (r_cost rd + delta D a c b))
  end.
Proof using Type.
  unfold offer. fold (delta D a c b) (dd c). destruct (exceeds C ceps (r_cap rd + dd c)) eqn:E1.
  - apply exceeds_true in E1. intros [H _]. exact (E1 H).
  - destruct (exceeds L seps (r_cost rd + delta D a c b)) eqn:E2. apply exceeds_true in E2. intros [_ H]. exact (E2 H). split; reflexivity.
Qed.

(** Same route, more entries *)
Definition grown_rd (rd rd' : rdata) : Prop :=
  r_route rd' = r_route rd /\ r_cost rd' = r_cost rd /\ r_cap rd' = r_cap rd /\ (forall e, In e (r_heap rd) -> In e (r_heap rd')) /\
  (Forall entry_ok (r_heap rd) -> Forall entry_ok (r_heap rd')).
Lemma grown_refl rd : grown_rd rd rd. Proof using Type. repeat (split; [reflexivity|]). split; intros; assumption. Qed.
Lemma grown_trans a b c : grown_rd a b -> grown_rd b c -> grown_rd a c.
Proof using Type. unfold grown_rd. intros (A1 & A2 & A3 & A4 & A5) (B1 & B2 & B3 & B4 & B5). split; [congruence|]. split; [congruence|]. split; [congruence|]. split; auto. Qed.
Lemma grown_ok rd rd' r : grown_rd rd rd' -> rd_ok rd r -> rd_ok rd' r.
Proof using Type. intros (A1 & A2 & A3 & _) (B1 & B2 & B3). unfold rd_ok. rewrite A1, A2, A3. split; [exact B1|split; [exact B2|exact B3]]. Qed.

Definition offered (rd : rdata) (h : list entry) (a c b : nat) : Prop :=
  (exists e, In e h /\ entry_for a c b e) \/ ~ (within C ceps (r_cap rd + dd c) /\ within L seps (r_cost rd + delta D a c b)).

Lemma push_all_spec : forall u a b rd n rd' n', push_all ceps seps D d C L strain ident u a b rd n = (rd', n') ->
  grown_rd rd rd' /\ forall c, In c u -> offered rd (r_heap rd') a c b.
Proof using Type.
  induction u as [|x t IH]; intros a b rd n rd' n' H; cbn in H.
  - inversion H; subst. split; [apply grown_refl|intros c []].
  - pose proof (offer_spec rd a b n x) as O. destruct (offer ceps seps D d C L strain ident rd a b n x) as [e|].
    + apply IH in H as [G F]. assert (G0 : grown_rd rd (push rd e)).
      { unfold grown_rd, push. cbn. repeat (split; [reflexivity|]). split; [auto|]. intro. constructor; auto. exists a, x, b. exact O. }
      split; [eapply grown_trans; eauto|]. intros c [<-|Hc].
      * left. exists e. split; [|exact O]. apply (proj1 (proj2 (proj2 (proj2 G)))). cbn. auto.
      * exact (F c Hc).
    + apply IH in H as [G F]. split; [exact G|]. intros c [<-|Hc]; [right; exact O|exact (F c Hc)].
Qed.
Lemma push_edges_spec : forall es u rd n rd' n', push_edges ceps seps D d C L strain ident u es rd n = (rd', n') ->
  grown_rd rd rd' /\ forall a b c, In (a, b) es -> In c u -> offered rd (r_heap rd') a c b.
Proof using Type.
  induction es as [|[a b] t IH]; intros u rd n rd' n' H; cbn in H.
  - inversion H; subst. split; [apply grown_refl|intros a b c []].
  - destruct (push_all ceps seps D d C L strain ident u a b rd n) as [rd1 n1] eqn:E. apply push_all_spec in E as [G1 F1]. apply IH in H as [G2 F2].
    split; [eapply grown_trans; eauto|]. intros x y c [Exy|Hxy] Hc.
    + inversion Exy; subst. destruct (F1 c Hc) as [(e & He & Ee)|O]; [left|right; exact O]. exists e. split; [|exact Ee]. apply (proj1 (proj2 (proj2 (proj2 G2)))), He.
    + destruct (F2 x y c Hxy Hc) as [O|O]; [left; exact O|right]. destruct G1 as (_ & Q1 & Q2 & _). rewrite Q1, Q2 in O. exact O.
Qed.

(** What an insertion callback has to do with a valid insertion: reject it, or return data of a route with the
    same customers and the new one, within L, and no new entries in the heap. *)
Definition callback_ok : Prop := forall i rd r, rd_ok rd r -> i = ins_of (in_after i) (in_cust i) (in_before i) ->
  In (in_after i, in_before i) (edges (0%nat :: r ++ [0%nat])) -> NoDup (in_cust i :: r) -> (forall x, In x (in_cust i :: r) -> (1 <= x < N)%nat) ->
  callback i rd = Some None \/
  exists rd' es r', callback i rd = Some (Some (rd', es)) /\ rd_ok rd' r' /\ Permutation r' (in_cust i :: r) /\
    within L seps (route_cost D r') /\ forall e, In e (r_heap rd') -> In e (r_heap rd).
Hypothesis cb_ok : callback_ok.
Hypothesis d0 : d 0%nat = 0.

Definition with_heap (rd : rdata) (h : list entry) : rdata := mkrd (r_route rd) (r_cost rd) (r_cap rd) h.
Lemma with_heap_ok rd h r : rd_ok rd r -> rd_ok (with_heap rd h) r. Proof using Type. auto. Qed.

Lemma seems_valid_spec i rd r u : rd_ok rd r -> seems_valid ceps d C i rd u = true <->
  In (in_cust i) u /\ In (in_after i, in_before i) (edges (0%nat :: r ++ [0%nat])) /\ within C ceps (demand d (in_cust i :: r)).
Proof.
  clear cb_ok d0. clear seps N L strain callback ident S. intros (A1 & A2 & A3). unfold seems_valid. rewrite !andb_true_iff, mem_in, adjacent_in, negb_true_iff, exceeds_within, A1, demand_cons.
  destruct (is_set C) eqn:Es. rewrite (A3 eq_refl), Z.add_comm. tauto. split; [intros [[X Y] _]|intros (X & Y & _)]; repeat split; auto; apply is_set_within, Es.
Qed.

Lemma pops_spec : forall n rd r u, (length (r_heap rd) <= n)%nat -> rd_ok rd r -> Forall entry_ok (r_heap rd) -> NoDup r -> (forall x, In x r -> (1 <= x < N)%nat) ->
  (forall x, In x u -> (1 <= x < N)%nat /\ ~ In x r) ->
  match pops ceps d C callback n rd u with
  | None => False
  | Some (Exhausted rd') => rd' = with_heap rd []
  | Some (Inserted c rd' es) => exists r', In c u /\ rd_ok rd' r' /\ Permutation r' (c :: r) /\ within C ceps (demand d r') /\ within L seps (route_cost D r') /\ Forall entry_ok (r_heap rd')
  end.
Proof.
  induction n as [|n IH]; intros rd r u Hl Hrd He Hr Hb Hu; cbn [pops].
  - destruct (r_heap rd) as [|e t] eqn:E; [|cbn in Hl; lia]. destruct rd; cbn in *; subst; reflexivity.
  - destruct (r_heap rd) as [|e t] eqn:E.
    + destruct rd; cbn in *; subst; reflexivity.
    + destruct (pop_min e t) as [m rest] eqn:P. apply pop_min_perm in P.
      assert (Hrest : Forall entry_ok rest /\ entry_ok m) by (apply (Forall_perm _ _ _ P) in He; inversion He; auto). destruct Hrest as [Hrest Hm].
      assert (Hn : (length rest <= n)%nat) by (apply Permutation_length in P; cbn in *; lia).
      fold (with_heap rd rest). specialize (IH (with_heap rd rest) r u Hn (with_heap_ok _ _ _ Hrd) Hrest Hr Hb Hu).
      destruct (seems_valid ceps d C (en_ins m) (with_heap rd rest) u) eqn:V; [|exact IH].
      apply (seems_valid_spec _ _ r _ (with_heap_ok rd rest r Hrd)) in V as (V1 & V2 & V3). destruct (Hu _ V1) as [U1 U2].
      destruct Hm as (a & c & b & Em & _).
      destruct (cb_ok (en_ins m) (with_heap rd rest) r (with_heap_ok _ _ _ Hrd)) as [R|(rd' & es & r' & R & K1 & K2 & K3 & K4)].
      * rewrite Em. reflexivity.
      * exact V2.
      * constructor; auto.
      * intros x [<-|Hx]; auto.
      * rewrite R. exact IH.
      * rewrite R. exists r'. split; [exact V1|]. split; [exact K1|]. split; [exact K2|]. split; [rewrite (demand_perm _ _ _ K2); exact V3|]. split; [exact K3|].
        apply Forall_forall. intros e' He'. apply K4 in He'. cbn in He'. revert He'. apply Forall_forall. exact Hrest.
Qed.

Lemma rd_new_ok b : b <> [] -> rd_ok (rd_new b D d) b.
Proof using d0.
  clear - d0. intro H. unfold rd_new. destruct b as [|x t] eqn:E; [easy|]. rewrite <- E. unfold rd_ok. cbn [r_route r_cost r_cap]. split; [reflexivity|].
  split. rewrite objf_path. reflexivity. intros _. rewrite !map_app, !sumZ_app. unfold demand. change (map d [0%nat]) with [d 0%nat]. rewrite d0, !sumZ_cons. cbn. lia.
Qed.

(** Only single customers are taken as seeds. *)
Definition singles : Prop := forall u x, picked S u x -> sd_a x = sd_b x.
Definition alone : Prop := served_alone N D d C L ceps seps.
Definition limits (rs : list (list nat)) : Prop := singles -> alone -> Forall (feasible D d C L ceps seps) rs.

Record cinv (st : cstate) (os ds : list (list nat)) : Prop := mkcinv {
  ci_o : Forall2 rd_ok (c_open st) os;
  ci_d : Forall2 rd_ok (c_done st) ds;
  ci_perm : Permutation (concat (os ++ ds) ++ c_unrouted st) (seq 1 (N - 1));
  ci_ne : Forall (fun r => r <> []) (os ++ ds);
  ci_lim : limits (os ++ ds);
  ci_heap : Forall (fun rd => Forall entry_ok (r_heap rd)) (c_open st);
  ci_stack : exists sl, c_seeds st = map seed_custs sl /\ stack_ok S sl (c_unrouted st);
  ci_turn_ok : (c_turn st < length (c_open st))%nat }.
Hypothesis seeds_all : has_singles S (seq 1 (N - 1)).


(** What the handler of the interrupt needs *)
Definition snap_ok (s : snapshot) : Prop := exists os ds us, Forall2 rd_ok (sn_open s) os /\ Forall2 rd_ok (sn_done s) ds /\
  Permutation (concat (os ++ ds) ++ us) (seq 1 (N - 1)) /\ Forall (fun r => r <> []) (os ++ ds) /\ limits (os ++ ds) /\
  NoDup (sn_unrouted s) /\ forall x, In x us <-> In x (sn_unrouted s) /\ ~ In x (concat (os ++ ds)).
Definition good_point (p : cpoint) : bool := match p with RouteCompleted | SeedTaken => false | _ => true end.
Definition points_ok (pts : list (cpoint * snapshot)) : Prop := forall p s, In (p, s) pts -> good_point p = true -> snap_ok s.


Lemma snap_plain o dn u os ds : Forall2 rd_ok o os -> Forall2 rd_ok dn ds -> Permutation (concat (os ++ ds) ++ u) (seq 1 (N - 1)) ->
  Forall (fun r => r <> []) (os ++ ds) -> limits (os ++ ds) -> snap_ok (mksnap o dn u).
Proof.
  intros A1 A2 A3 A4 A5. exists os, ds, u. cbn. repeat (split; [assumption|]). split. apply (nodups N) in A3. eapply nodup_app_r, A3.
  intro x. split; [|tauto]. intro H. split; auto. eapply nodup_app_sep; [apply (nodups N), A3|exact H].
Qed.

Lemma limits_app rs rs' : limits rs -> limits rs' -> limits (rs ++ rs').
Proof. intros H H' A B. apply Forall_app. auto. Qed.
Lemma limits_app_inv rs rs' : limits (rs ++ rs') -> limits rs /\ limits rs'.
Proof. intro H. split; intros A B; apply (H A) in B; apply Forall_app in B; tauto. Qed.
Lemma limits_set k r rs : limits [r] -> limits rs -> limits (set_nth k r rs).
Proof. intros H H' A B. apply set_nth_Forall; auto. specialize (H A B). inversion H; auto. Qed.
Lemma limits_nth k rs : (k < length rs)%nat -> limits rs -> limits [nth k rs []].
Proof. intros H H' A B. constructor; auto. eapply Forall_forall; [apply (H' A B)|]. apply nth_In, H. Qed.

Lemma turn_spec st os ds : cinv st os ds -> c_unrouted st <> [] -> exists st' os' ds' pts,
  turn ceps seps D d C L strain callback ident st = Some (Continue st', pts) /\ cinv st' os' ds' /\ (length (c_unrouted st') < length (c_unrouted st))%nat /\ points_ok pts /\
  length os' = length os.
Proof.
  intros I Hu. unfold turn. destruct I as [Io Id Ip Ine Il Ih (sl & Esl & Isl) It]. set (k := c_turn st) in *.
  assert (Eo := Forall2_length2 _ _ _ Io). assert (Hk : (k < length os)%nat) by (rewrite <- Eo; exact It).
  set (rd0 := nth k (c_open st) (mkrd [] 0 0 [])). set (r0 := nth k os []).
  assert (R0 : rd_ok rd0 r0) by (apply Forall2_nth; auto).
  assert (H0 : Forall entry_ok (r_heap rd0)) by (apply (proj1 (Forall_forall _ _) Ih), nth_In, It).
  assert (Hr0 : In r0 (os ++ ds)) by (apply in_or_app; left; apply nth_In, Hk).
  assert (Hr0c : forall x, In x r0 -> In x (concat (os ++ ds))) by (intros x Hx; apply in_concat; exists r0; auto).
  assert (Nr0 : NoDup r0). { apply (nodups N) in Ip. destruct (in_split _ _ Hr0) as (l1 & l2 & E). rewrite E, concat_app in Ip. cbn in Ip. rewrite <- !app_assoc in Ip. eapply nodup_mid, Ip. }
  assert (Br0 : forall x, In x r0 -> (1 <= x < N)%nat) by (intros x Hx; eapply bounds; [exact Ip|left; auto]).
  assert (Bu : forall x, In x (c_unrouted st) -> (1 <= x < N)%nat /\ ~ In x r0).
  { intros x Hx. split. eapply bounds; [exact Ip|right; exact Hx]. intro Hx'. eapply nodup_app_sep; [apply (nodups N), Ip|exact Hx|auto]. }
  assert (Nu : NoDup (c_unrouted st)) by (eapply nodup_app_r, (nodups N), Ip).
  destruct (match r_heap rd0 with [] => push_edges ceps seps D d C L strain ident (c_unrouted st) (edges (r_route rd0)) rd0 (c_tick st) | _ => (rd0, c_tick st) end) as [rd1 t1] eqn:E1.
  assert (G1 : grown_rd rd0 rd1). { destruct (r_heap rd0). apply push_edges_spec in E1 as [G _]. exact G. inversion E1. apply grown_refl. }
  assert (R1 := grown_ok _ _ _ G1 R0). assert (H1 : Forall entry_ok (r_heap rd1)) by (apply G1, H0).
  pose proof (pops_spec (length (r_heap rd1)) rd1 r0 (c_unrouted st) (le_n _) R1 H1 Nr0 Br0 Bu) as P.
  destruct (pops ceps d C callback (length (r_heap rd1)) rd1 (c_unrouted st)) as [res|]; [|easy].
  (* the route after the loop *)
  assert (Q : exists rd2 r2 u2 t2 pts,
    (match res with
     | Exhausted rd => (rd, c_unrouted st, t1, [])
     | Inserted c rd es => let u := del c (c_unrouted st) in let '(rd', t') := push_edges ceps seps D d C L strain ident u es rd t1 in
         (rd', u, t', [(CustomerInserted, mksnap (set_nth k rd (c_open st)) (c_done st) (c_unrouted st)); (CustomerRemoved, mksnap (set_nth k rd (c_open st)) (c_done st) u)])
     end) = (rd2, u2, t2, pts) /\
    rd_ok rd2 r2 /\ Forall entry_ok (r_heap rd2) /\ Permutation (concat (set_nth k r2 os ++ ds) ++ u2) (seq 1 (N - 1)) /\ r2 <> [] /\ limits [r2] /\
    (forall x, In x u2 -> In x (c_unrouted st)) /\ (length u2 <= length (c_unrouted st))%nat /\ (r_heap rd2 <> [] -> (length u2 < length (c_unrouted st))%nat) /\ (u2 = [] -> (length u2 < length (c_unrouted st))%nat) /\ points_ok pts).
  { assert (Lu : c_unrouted st <> [] -> (0 < length (c_unrouted st))%nat) by (destruct (c_unrouted st); cbn; [easy|lia]).
    destruct res as [rd|c rd es].
    - exists rd, r0, (c_unrouted st), t1, []. split; [reflexivity|]. subst rd. split; [exact R1|]. split; [constructor|]. unfold r0. rewrite set_nth_same_id by exact Hk.
      split; [exact Ip|]. split; [eapply Forall_forall in Ine; [exact Ine|exact Hr0]|]. split; [apply limits_nth; [exact Hk|apply limits_app_inv in Il; tauto]|].
      split; [auto|]. split; [auto|]. split; [intros X; destruct X; reflexivity|]. split; [intro X; rewrite X; congruence|]. intros ? ? [].
    - destruct P as (r' & Pc & Pr & Pp & P3 & P4 & P5).
      destruct (push_edges ceps seps D d C L strain ident (del c (c_unrouted st)) es rd t1) as [rd' t'] eqn:E2. assert (G2 := proj1 (push_edges_spec _ _ _ _ _ _ E2)).
      exists rd', r', (del c (c_unrouted st)), t'. eexists. split; [cbn; rewrite E2; reflexivity|]. split; [apply (grown_ok _ _ _ G2 Pr)|]. split; [apply G2, P5|].
      assert (Hn : r' <> []) by (intros ->; apply Permutation_nil in Pp; discriminate).
      assert (Hlim : limits [r']) by (intros _ _; constructor; [split; assumption|constructor]).
      assert (PP : Permutation (concat (set_nth k r' os ++ ds) ++ del c (c_unrouted st)) (seq 1 (N - 1))).
      { eapply Permutation_trans; [apply insert_perm; auto|exact Ip]. }
      assert (HF : forall x (P : x = rd), Forall2 rd_ok (set_nth k x (c_open st)) (set_nth k r' os)) by (intros x ->; apply set_nth_Forall2; auto).
      assert (Ane : Forall (fun r => r <> []) (set_nth k r' os ++ ds)) by (apply Forall_app in Ine as [X Y]; apply Forall_app; split; auto; apply set_nth_Forall; auto).
      assert (Alim : limits (set_nth k r' os ++ ds)) by (apply limits_app_inv in Il as [X Y]; apply limits_app; auto; apply limits_set; auto).
      assert (Hd := del_len c (c_unrouted st) Nu Pc).
      split; [exact PP|]. split; [exact Hn|]. split; [exact Hlim|]. split; [intros x Hx; apply in_del in Hx; tauto|]. split; [lia|]. split; [lia|]. split; [lia|].
      intros p s [X|[X|[]]] _; inversion X; subst p s; clear X.
      + exists (set_nth k r' os), ds, (del c (c_unrouted st)). cbn. split; [apply HF; reflexivity|]. split; [exact Id|]. split; [exact PP|]. split; [exact Ane|]. split; [exact Alim|]. split; [exact Nu|].
        intro x. rewrite in_del. split.
        * intros [X1 X2]. split; auto. eapply nodup_app_sep; [apply (nodups N), PP|]. apply in_del. auto.
        * intros [X1 X2]. split; auto. intros ->. apply X2. apply in_concat. exists r'. split. apply in_or_app. left. apply set_nth_in, Hk.
          apply (Permutation_in _ (Permutation_sym Pp)). cbn. auto.
      + apply (snap_plain _ _ _ (set_nth k r' os) ds); auto. }
  destruct Q as (rd2 & r2 & u2 & t2 & pts & EQ & Q1 & Q2 & Q3 & Q4 & Q5 & Q6 & Q7 & Q8 & Q9 & Q10). cbv zeta in EQ. cbv zeta. rewrite EQ.
  set (next := if Nat.eqb (Datatypes.S k) (length (c_open st)) then 0%nat else Datatypes.S k).
  assert (Hnext : (next < length (c_open st))%nat) by (unfold next; destruct (Nat.eqb_spec (Datatypes.S k) (length (c_open st))); fold k in It; lia).
  assert (F2 : Forall2 rd_ok (set_nth k rd2 (c_open st)) (set_nth k r2 os)) by (apply set_nth_Forall2; auto).
  assert (Ane : Forall (fun r => r <> []) (set_nth k r2 os ++ ds)) by (apply Forall_app in Ine as [X Y]; apply Forall_app; split; auto; apply set_nth_Forall; auto).
  assert (Alim : limits (set_nth k r2 os ++ ds)) by (apply limits_app_inv in Il as [X Y]; apply limits_app; auto; apply limits_set; auto).
  assert (Ah : Forall (fun rd => Forall entry_ok (r_heap rd)) (set_nth k rd2 (c_open st))) by (apply set_nth_Forall; auto).
  assert (Hbeg : snap_ok (mksnap (c_open st) (c_done st) (c_unrouted st))) by (apply (snap_plain _ _ _ os ds); auto).
  assert (Isl2 : stack_ok S sl u2) by (eapply stack_ok_incl; [exact Q6|exact Isl]).
  destruct (match r_heap rd2, u2 with [], _ :: _ => true | _, _ => false end) eqn:EB.
  - assert (Eh : r_heap rd2 = [] /\ u2 <> []) by (destruct (r_heap rd2), u2; try discriminate; split; easy). destruct Eh as [Eh Hu2].
    rewrite Eh. destruct u2 as [|y ys] eqn:Eu2; [easy|]. rewrite <- Eu2 in *. clear EB.
    rewrite Esl. assert (Hsing : has_singles S u2) by (intros c Hc; apply seeds_all; apply in_seq; assert (B := bounds N _ _ c Ip (or_intror (Q6 c Hc))); lia).
    pose proof (pick_some S sl u2 Hsing Isl2 Hu2) as PS. pose proof (pick_spec S sl u2 Isl2) as PK.
    destruct (pick_seed (map seed_custs sl) u2) as [[chosen t]|]; [|easy]. destruct PK as (x & sl' & -> & -> & Px & Isl').
    assert (Nu2 : NoDup u2) by (eapply nodup_app_r, (nodups N), Q3).
    assert (Hin : forall c, In c (chosen_of x) -> In c u2) by (intros c Hc; apply chosen_in in Hc; destruct Px as [[Pa Pb] _]; destruct Hc; subst; auto).
    assert (Hlen := del_all_len _ _ Nu2 (chosen_nodup x) (chosen_nonempty x) Hin).
    assert (Hb : rd_ok (rd_new (chosen_of x) D d) (chosen_of x)) by apply rd_new_ok, chosen_nonempty.
    assert (Hlb : limits [chosen_of x]). { intros A B. constructor; [|constructor]. unfold chosen_of. rewrite (A u2 x Px), Nat.eqb_refl. apply B. destruct Px as [[_ Pb] _]. eapply bounds; [exact Q3|right; exact Pb]. }
    set (os' := set_nth k (chosen_of x) (set_nth k r2 os)). set (ds' := ds ++ [r2]).
    assert (Fo : Forall2 rd_ok (set_nth k (rd_new (chosen_of x) D d) (set_nth k rd2 (c_open st))) os') by (apply set_nth_Forall2; auto).
    assert (Fd : Forall2 rd_ok (c_done st ++ [rd2]) ds') by (apply Forall2_app; auto).
    assert (Hk2 : (k < length (set_nth k r2 os))%nat) by (rewrite set_nth_length; exact Hk).
    assert (PP : Permutation (concat (os' ++ ds') ++ del_all (chosen_of x) u2) (seq 1 (N - 1))).
    { eapply Permutation_trans; [apply reseed_perm; auto; apply chosen_nodup|exact Q3]. }
    assert (Bne : Forall (fun r => r <> []) (os' ++ ds')). { apply Forall_app in Ane as [X Y]. apply Forall_app. split. apply set_nth_Forall; [apply chosen_nonempty|exact X]. apply Forall_app. split; auto. }
    assert (Blim : limits (os' ++ ds')). { apply limits_app_inv in Alim as [X Y]. apply limits_app. apply limits_set; auto. apply limits_app; auto. }
    eexists. exists os', ds'. eexists. split; [reflexivity|]. split.
    { constructor; cbn; auto.
      - apply set_nth_Forall; auto. unfold rd_new. destruct (chosen_of x); cbn; constructor.
      - exists sl'. auto.
      - rewrite !set_nth_length. exact Hnext. }
    split; [cbn; lia|]. split; [|unfold os'; rewrite !set_nth_length; reflexivity].
    intros p s Hp Hg. cbn [In] in Hp. destruct Hp as [Hp|Hp]; [inversion Hp; subst; exact Hbeg|]. apply in_app_or in Hp as [Hp|Hp]; [eapply Q10; eauto|].
    destruct Hp as [Hp|[Hp|[Hp|[]]]]; inversion Hp; subst p s; try discriminate Hg. apply (snap_plain _ _ _ os' ds'); auto.
  - exists (mkcs (set_nth k rd2 (c_open st)) (c_done st) u2 (c_seeds st) next t2), (set_nth k r2 os), ds. eexists.
    assert (Hlt : (length u2 < length (c_unrouted st))%nat). { destruct (r_heap rd2) eqn:Eh; [|apply Q8; discriminate]. destruct u2; [apply Q9; reflexivity|discriminate]. }
    split. { destruct (r_heap rd2); [destruct u2; [reflexivity|discriminate]|reflexivity]. }
    split. { constructor; cbn; auto. exists sl. auto. rewrite set_nth_length. exact Hnext. }
    split; [exact Hlt|]. split; [|apply set_nth_length].
    intros p s [Hp|Hp] Hg; [inversion Hp; subst; exact Hbeg|eapply Q10; eauto].
Qed.

Lemma export_open rds rs : Forall2 rd_ok rds rs -> Forall (fun r => r <> []) rs -> 0%nat :: export_solution rds = encode rs.
Proof using Type.
  clear. unfold encode, export_solution. induction 1 as [|rd r rds rs (E & _) H IH]; intro Hn; [reflexivity|]. inversion Hn as [|? ? Hr Hrs]; subst.
  specialize (IH Hrs). injection IH as IH. cbn [flat_map]. rewrite IH, E. destruct r as [|x t]; [easy|].
  replace (Nat.ltb 2 (length (0%nat :: (x :: t) ++ [0%nat]))) with true by (symmetry; apply Nat.ltb_lt; cbn; rewrite app_length; cbn; lia). reflexivity.
Qed.

Lemma export_both o dn os ds : Forall2 rd_ok o os -> Forall2 rd_ok dn ds -> Forall (fun r => r <> []) (os ++ ds) ->
  [0%nat] ++ export_solution o ++ export_solution dn = encode (os ++ ds).
Proof using Type.
  intros A B H. apply Forall_app in H as [H1 H2]. rewrite encode_app, <- (export_open o os A H1), <- (export_open dn ds B H2). reflexivity.
Qed.

Lemma main_loop_spec : forall fuel st os ds, (length (c_unrouted st) <= fuel)%nat -> cinv st os ds -> exists os' ds' pts,
  main_loop ceps seps D d C L strain callback ident fuel st = Some (Solution (encode (os' ++ ds')), pts) /\
  covers N (os' ++ ds') /\ Forall (fun r => r <> []) (os' ++ ds') /\ limits (os' ++ ds') /\ points_ok pts /\ length os' = length os.
Proof.
  induction fuel as [|fuel IH]; intros st os ds Hf I; cbn [main_loop].
  - destruct (c_unrouted st) eqn:E; [|cbn in Hf; lia]. exists os, ds, []. destruct I as [Io Id Ip Ine Il _ _ _]. rewrite (export_both _ _ os ds) by auto.
    rewrite E, app_nil_r in Ip. repeat (split; auto). intros ? ? [].
  - destruct (c_unrouted st) eqn:E.
    + exists os, ds, []. destruct I as [Io Id Ip Ine Il _ _ _]. rewrite (export_both _ _ os ds) by auto. rewrite E, app_nil_r in Ip. repeat (split; auto). intros ? ? [].
    + assert (Hu : c_unrouted st <> []) by (rewrite E; easy). destruct (turn_spec st os ds I Hu) as (st' & os' & ds' & pts & Et & I' & Hlt & Hp & Hl). rewrite Et.
      assert (Hf' : (length (c_unrouted st') <= fuel)%nat) by (rewrite E in Hlt; cbn in *; lia).
      destruct (IH st' os' ds' Hf' I') as (os2 & ds2 & pts2 & -> & C1 & C2 & C3 & C4 & C5). exists os2, ds2, (pts ++ pts2). repeat (split; [assumption||reflexivity|]). split; [|congruence].
      intros p s Hin Hg. apply in_app_or in Hin as [Hin|Hin]; [eapply Hp|eapply C4]; eauto.
Qed.

Lemma initial_spec : forall K sl u os, Permutation (concat os ++ u) (seq 1 (N - 1)) -> Forall (fun r => r <> []) os -> limits os -> stack_ok S sl u ->
  match initial_routes D d K (map seed_custs sl) u with
  | None => singles -> (length u < K)%nat
  | Some (rds, seeds, u') => exists sl' bs, length bs = K /\ seeds = map seed_custs sl' /\ Forall2 rd_ok rds bs /\ Permutation (concat (os ++ bs) ++ u') (seq 1 (N - 1)) /\
      Forall (fun r => r <> []) (os ++ bs) /\ limits (os ++ bs) /\ stack_ok S sl' u' /\ Forall (fun rd => r_heap rd = []) rds
  end.
Proof.
  induction K as [|K IH]; intros sl u os Hp Hne Hlim Hst; cbn [initial_routes].
  - exists sl, []. rewrite app_nil_r. repeat (split; auto).
  - assert (Hsing : has_singles S u) by (intros c Hc; apply seeds_all; apply in_seq; assert (B := bounds N _ _ c Hp (or_intror Hc)); lia).
    pose proof (pick_spec S sl u Hst) as PK. pose proof (pick_some S sl u Hsing Hst) as PS. destruct (pick_seed (map seed_custs sl) u) as [[chosen t]|].
    2:{ intros _. destruct u as [|c u']; [cbn; lia|]. exfalso. apply PS; easy. }
    destruct PK as (x & sl' & -> & -> & Px & Hst'). assert (Nu : NoDup u) by (eapply nodup_app_r, (nodups N), Hp).
    assert (Hin : forall c, In c (chosen_of x) -> In c u) by (intros c Hc; apply chosen_in in Hc; destruct Px as [[Pa Pb] _]; destruct Hc; subst; auto).
    assert (Hlen := del_all_len _ _ Nu (chosen_nodup x) (chosen_nonempty x) Hin).
    assert (Hlb : limits [chosen_of x]). { intros A B. constructor; [|constructor]. unfold chosen_of. rewrite (A u x Px), Nat.eqb_refl. apply B. destruct Px as [[_ Pb] _]. eapply bounds; [exact Hp|right; exact Pb]. }
    assert (Hp' : Permutation (concat (os ++ [chosen_of x]) ++ del_all (chosen_of x) u) (seq 1 (N - 1))).
    { rewrite <- Hp, concat_app. cbn [concat]. rewrite app_nil_r, <- app_assoc. apply Permutation_app_head, Permutation_sym, del_all_perm; auto. apply chosen_nodup. }
    specialize (IH sl' (del_all (chosen_of x) u) (os ++ [chosen_of x]) Hp'). 
    destruct (initial_routes D d K (map seed_custs sl') (del_all (chosen_of x) u)) as [[[rds seeds] u']|].
    + destruct IH as (sl2 & bs & E1 & E2 & E3 & E4 & E5 & E6 & E7 & E8); auto. apply Forall_app; split; auto. constructor; auto. apply chosen_nonempty. apply limits_app; auto.
      exists sl2, (chosen_of x :: bs). rewrite <- app_assoc in E4, E5, E6. split; [cbn; congruence|]. split; [exact E2|]. split; [constructor; auto; apply rd_new_ok, chosen_nonempty|].
      repeat (split; [assumption|]). constructor; auto. unfold rd_new. destruct (chosen_of x); reflexivity.
    + intro Hs. assert ((length (del_all (chosen_of x) u) < K)%nat). { apply IH; auto. apply Forall_app; split; auto. constructor; auto. apply chosen_nonempty. apply limits_app; auto. }
      assert (El := Permutation_length (del_all_perm _ _ Nu (chosen_nodup x) Hin)). rewrite app_length in El. unfold chosen_of in El at 1. rewrite (Hs u x Px), Nat.eqb_refl in El. cbn [length] in El. lia.
Qed.

(** The result, for any number of emerging routes *)
Lemma init_spec K sl0 fuel : sl0 = S -> (1 <= K)%nat -> (N <= fuel)%nat ->
  (exists rs pts, insertion_init ceps seps D d C L strain callback ident N K (map seed_custs sl0) fuel = Some (Solution (encode rs), pts) /\
     covers N rs /\ Forall (fun r => r <> []) rs /\ limits rs /\ points_ok pts /\ (K <= length rs)%nat) \/
  (insertion_init ceps seps D d C L strain callback ident N K (map seed_custs sl0) fuel = Some (RanOutOfSeeds, []) /\ (singles -> (N - 1 < K)%nat)).
Proof.
  intros -> HK Hf. unfold insertion_init. pose proof (initial_spec K S (range 1 N) []) as P. unfold range in *.
  destruct (initial_routes D d K (map seed_custs S) (seq 1 (N - 1))) as [[[rds seeds] u]|].
  - destruct P as (sl' & bs & E1 & -> & E3 & E4 & E5 & E6 & E7 & E8); [reflexivity|constructor|intros ? ?; constructor|exists []; split; [reflexivity|intros ? []]|]. cbn [app] in *. left.
    assert (Hlu : (length u <= fuel)%nat). { assert (Hl := Permutation_length E4). rewrite app_length, seq_length in Hl. lia. }
    destruct (main_loop_spec fuel (mkcs rds [] u (map seed_custs sl') 0 0) bs []) as (os' & ds' & pts & -> & M1 & M2 & M3 & M4 & M5).
    + exact Hlu.
    + constructor; cbn; rewrite ?app_nil_r; auto. clear -E8. induction E8; constructor; auto. rewrite H. constructor. exists sl'. auto. rewrite (Forall2_length2 _ _ _ E3), E1. lia.
    + exists (os' ++ ds'), pts. repeat (split; auto). rewrite app_length. lia.
  - right. split; [reflexivity|]. rewrite seq_length in P. intro Hs. apply P; [reflexivity|constructor|intros ? ?; constructor| |exact Hs]. exists []. split; [reflexivity|intros ? []].
Qed.
End Loop.
