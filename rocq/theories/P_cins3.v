(** * Cheapest insertion: the default callback, the rule, seeds, the handler *)
From Verif Require Import Spec Spec_inter Spec_savings Spec_cins PyBase M_util M_intra M_psavings M_cins P_base P_driver P_cins P_cins2.
From Coq Require Import ZifyBool ZifyNat Lia.

Lemma replace_set {A} (k : nat) (x : A) : forall l, (k < length l)%nat -> set_nth k x l = replace k x l.
Proof. unfold replace. induction k as [|k IH]; intros [|y l] H; cbn in *; try lia; auto. f_equal. apply IH. lia. Qed.

Section Default.
Variables ceps seps : Z.
Variable N : nat.
Variable D : matrix.
Variable d : demands.
Variables C L : limit.
Variable minimize_K : bool.
Variable strain : nat -> nat -> nat -> Z * Z.
Variable ident : nat -> Z.
Variable S : list seed.
Hypothesis d0 : d 0%nat = 0.
Hypothesis seeds_all : has_singles S (seq 1 (N - 1)).

Notation cb := (try_insert_and_update seps D L minimize_K).
Notation rdok := (rd_ok D d C).

Lemma insert_in_ok a c b rd r : rdok rd r -> In (a, b) (edges (0%nat :: r ++ [0%nat])) -> exists p, (p <= length r)%nat /\ node_before p r = a /\ node_after p r = b /\
  insert_in (ins_of D d C a c b) rd = 0%nat :: insert_at p c r ++ [0%nat] /\ route_cost D (insert_at p c r) = route_cost D r + delta D a c b.
Proof.
  intros (E & _) H. destruct (insert_between_at a b c r H) as (p & Hp & Ha & Hb & Hi). exists p. split; [exact Hp|]. split; [exact Ha|]. split; [exact Hb|].
  split. unfold insert_in. cbn. rewrite E. exact Hi. rewrite insert_at_cost by exact Hp. rewrite Ha, Hb. reflexivity.
Qed.
Lemma cap_insert rd r r' c : rdok rd r -> Permutation r' (c :: r) -> is_set C = true -> r_cap rd + dd d C c = demand d r'.
Proof. intros (_ & _ & H) P E. rewrite (demand_perm _ _ _ P), demand_cons, (H E). unfold dd. rewrite E. lia. Qed.

Lemma default_ok : callback_ok seps N D d C L cb.
Proof.
  intros i rd r R Ei He Hn Hb. unfold try_insert_and_update. set (c := in_cust i) in *. set (a := in_after i) in *. set (b := in_before i) in *.
  destruct (negb minimize_K && (0 <? in_dl i - D 0%nat c - D c 0%nat)); [left; reflexivity|].
  destruct (exceeds L seps (r_cost rd + in_dl i)) eqn:E; [left; reflexivity|]. right.
  destruct (insert_in_ok a c b rd r R He) as (p & Hp & Ha & Hbb & Hi & Hc).
  apply exceeds_within in E. assert (Edl : in_dl i = delta D a c b) by (rewrite Ei; reflexivity). assert (Edd : in_dd i = dd d C c) by (rewrite Ei; reflexivity).
  eexists. eexists. exists (insert_at p c r). split; [reflexivity|]. split.
  - split; [cbn [r_route]; rewrite Ei; exact Hi|]. cbn [r_cost r_cap]. split. destruct R as (_ & -> & _). rewrite Hc, Edl. reflexivity. intro Es. rewrite Edd. apply (cap_insert rd r); auto. apply insert_at_perm.
  - split; [apply insert_at_perm|]. split; [|auto]. rewrite Hc, <- Edl. destruct R as (_ & <- & _). exact E.
Qed.

(** ** The rule *)
(** Inserting [c] between the neighbours [a] and [b] of the route is admissible. *)
Definition adm (r : list nat) (a c b : nat) : Prop :=
  within C ceps (demand d (c :: r)) /\ within L seps (route_cost D r + delta D a c b) /\ (minimize_K = true \/ delta D a c b <= D 0%nat c + D c 0%nat).
Definition adm_here (r u : list nat) (a c b : nat) : Prop := In (a, b) (edges (0%nat :: r ++ [0%nat])) /\ In c u /\ adm r a c b.
Definition has_entry (h : list entry) (a c b : nat) : Prop := exists e, In e h /\ entry_for D d C strain a c b e.
Definition complete (h : list entry) (r u : list nat) : Prop := forall a c b, adm_here r u a c b -> has_entry h a c b.
Definition pref_of (a c b : nat) : Z * Z * Z := (- fst (strain a c b), snd (strain a c b), delta D a c b - D 0%nat c - D c 0%nat).

Lemma pops_rule : forall n rd r u, (length (r_heap rd) <= n)%nat -> rdok rd r -> Forall (entry_ok D d C strain) (r_heap rd) -> complete (r_heap rd) r u ->
  match pops ceps d C cb n rd u with
  | None => False
  | Some (Exhausted rd') => rd' = with_heap rd [] /\ complete [] r u
  | Some (Inserted c rd' es) => exists a b, adm_here r u a c b /\ (forall a' c' b', adm_here r u a' c' b' -> pref_le (pref_of a c b) (pref_of a' c' b')) /\
      es = [(a, c); (c, b)] /\ r_route rd' = insert_between a b c (0%nat :: r ++ [0%nat]) /\ r_cost rd' = route_cost D r + delta D a c b /\ r_cap rd' = r_cap rd + dd d C c /\
      (forall a' c' b', adm_here r u a' c' b' -> c' <> c -> has_entry (r_heap rd') a' c' b')
  end.
Proof.
  induction n as [|n IH]; intros rd r u Hl Hrd He Hc; cbn [pops].
  - destruct (r_heap rd) as [|e t] eqn:E; [split; [destruct rd; cbn in *; subst; reflexivity|exact Hc]|cbn in Hl; lia].
  - destruct (r_heap rd) as [|e t] eqn:E; [split; [destruct rd; cbn in *; subst; reflexivity|exact Hc]|].
    destruct (pop_min e t) as [m rest] eqn:P. pose proof (fun x => pop_min_least t e m rest x P) as Least. apply pop_min_perm in P.
    assert (Hrest : Forall (entry_ok D d C strain) rest /\ entry_ok D d C strain m) by (apply (Forall_perm _ _ _ P) in He; inversion He; auto). destruct Hrest as [Hrest Hm].
    assert (Hn : (length rest <= n)%nat) by (apply Permutation_length in P; cbn in *; lia).
    fold (with_heap rd rest). destruct Hm as (a & c & b & Em & Ep).
    (* discarding m *)
    assert (Disc : ~ adm_here r u a c b -> complete rest r u).
    { intros Na a' c' b' A. destruct (Hc a' c' b' A) as (e' & He' & F). apply (Permutation_in _ P) in He'. destruct He' as [<-|He'].
      - exfalso. apply Na. destruct F as [F _]. rewrite Em in F. inversion F; subst. exact A.
      - exists e'. auto. }
    assert (Go : ~ adm_here r u a c b -> match pops ceps d C cb n (with_heap rd rest) u with
      | None => False | Some (Exhausted rd') => rd' = with_heap rd [] /\ complete [] r u
      | Some (Inserted c rd' es) => exists a b, adm_here r u a c b /\ (forall a' c' b', adm_here r u a' c' b' -> pref_le (pref_of a c b) (pref_of a' c' b')) /\
          es = [(a, c); (c, b)] /\ r_route rd' = insert_between a b c (0%nat :: r ++ [0%nat]) /\ r_cost rd' = route_cost D r + delta D a c b /\ r_cap rd' = r_cap rd + dd d C c /\
          (forall a' c' b', adm_here r u a' c' b' -> c' <> c -> has_entry (r_heap rd') a' c' b') end).
    { intro Na. apply (IH (with_heap rd rest) r u Hn (with_heap_ok D d C rd rest r Hrd) Hrest (Disc Na)). }
    pose proof (seems_valid_spec ceps D d C (en_ins m) (with_heap rd rest) r u (with_heap_ok D d C rd rest r Hrd)) as V. rewrite Em in V. cbn [in_cust in_after in_before ins_of] in V.
    rewrite Em. destruct (seems_valid ceps d C (ins_of D d C a c b) (with_heap rd rest) u) eqn:SV.
    2:{ apply Go. intros (A1 & A2 & A3 & _). apply diff_false_true. apply V. auto. }
    destruct (proj1 V eq_refl) as (V1 & V2 & V3). unfold try_insert_and_update. cbn [in_cust in_dl ins_of in_after in_before in_dd with_heap r_cost r_cap r_heap].
    destruct (negb minimize_K && (0 <? delta D a c b - D 0%nat c - D c 0%nat)) eqn:E1.
    { apply Go. intros (_ & _ & _ & _ & [A|A]); [rewrite A in E1; discriminate|]. apply andb_prop in E1 as [_ E1]. lia. }
    destruct (exceeds L seps (r_cost rd + delta D a c b)) eqn:E2.
    { apply Go. intros (_ & _ & _ & A & _). apply exceeds_true in E2. apply E2. destruct Hrd as (_ & -> & _). exact A. }
    apply exceeds_within in E2. destruct Hrd as (R1 & R2 & R3). exists a, b. split; [|split; [|split; [|split; [|split; [|split]]]]].
    + split; [exact V2|]. split; [exact V1|]. split; [exact V3|]. split; [rewrite <- R2; exact E2|]. destruct minimize_K; [left; reflexivity|right]. cbn in E1. lia.
    + intros a' c' b' A. destruct (Hc a' c' b' A) as (e' & He' & _ & F). assert (X := entry_leb_pref _ _ (Least _ He')). rewrite Ep, F in X. exact X.
    + reflexivity.
    + cbn. unfold insert_in. cbn. rewrite R1. reflexivity.
    + cbn. rewrite R2. reflexivity.
    + reflexivity.
    + intros a' c' b' A Hne. destruct (Hc a' c' b' A) as (e' & He' & F). apply (Permutation_in _ P) in He'. destruct He' as [<-|He'].
      * exfalso. destruct F as [F _]. rewrite Em in F. inversion F; subst. apply Hne. reflexivity.
      * exists e'. auto.
Qed.

Lemma offered_adm rd h r a c b : rdok rd r -> offered ceps seps D d C L strain rd h a c b -> adm r a c b -> has_entry h a c b.
Proof.
  intros (R1 & R2 & R3) [O|O] (A1 & A2 & A3); [exact O|]. exfalso. apply O. rewrite R2. split; [|exact A2]. destruct (is_set C) eqn:E.
  - rewrite (R3 eq_refl). unfold dd. rewrite E. rewrite demand_cons, Z.add_comm in A1. exact A1.
  - apply is_set_within, E.
Qed.

(** Demands are not negative if there is a capacity, the triangle inequality holds if there is a length limit. *)
Hypothesis mono_C : is_set C = true -> forall j, (j < N)%nat -> 0 <= d j.
Hypothesis mono_L : is_set L = true -> forall i j k, (i < N)%nat -> (j < N)%nat -> (k < N)%nat -> D i k <= D i j + D j k.

Lemma within_mono lim eps x y : (is_set lim = true -> x <= y) -> within lim eps y -> within lim eps x.
Proof. unfold is_set, truthy, within. destruct lim as [l|]; auto. destruct (Z.eqb_spec l 0); intros H K; [congruence|]. intro. specialize (H eq_refl). specialize (K H0). lia. Qed.

Lemma edges_bound l a b : In (a, b) (edges l) -> In a l /\ In b l.
Proof. intro H. apply edges_split in H as (pre & post & ->). split; apply in_or_app; right; cbn; auto. Qed.

Lemma adm_shrink r r' a c b x y z : (forall v, In v r -> (1 <= v < N)%nat) -> (1 <= c < N)%nat -> In (a, b) (edges (0%nat :: r ++ [0%nat])) -> Permutation r' (c :: r) -> route_cost D r' = route_cost D r + delta D a c b ->
  adm r' x y z -> adm r x y z.
Proof.
  intros Hb Hcb He Hp Hc (A1 & A2 & A3). split; [|split; [|exact A3]].
  - refine (within_mono _ _ _ _ _ A1). intro H. rewrite !demand_cons, (demand_perm _ _ _ Hp), demand_cons. assert (Q := mono_C H c). lia.
  - refine (within_mono _ _ _ _ _ A2). intro H. rewrite Hc. apply edges_bound in He as [Ha Hbb].
    assert (Bd : forall v, In v (0%nat :: r ++ [0%nat]) -> (v < N)%nat). { intros v [<-|Hv]; [lia|]. apply in_app_or in Hv as [Hv|[<-|[]]]; [apply Hb in Hv; lia|lia]. }
    assert (Q := mono_L H a c b (Bd a Ha) ltac:(lia) (Bd b Hbb)). unfold delta. lia.
Qed.

Lemma edges_insert pre a c b post x y : In (x, y) (edges (pre ++ a :: c :: b :: post)) -> In (x, y) (edges (pre ++ a :: b :: post)) \/ (x, y) = (a, c) \/ (x, y) = (c, b).
Proof.
  induction pre as [|v t IH].
  - cbn. intros [E|[E|H]]; auto.
  - destruct t as [|w t'].
    + cbn [app]. intros [E|H]; [left; left; exact E|]. destruct (IH H) as [K|K]; auto. left. right. exact K.
    + intros [E|H]; [left; left; exact E|]. destruct (IH H) as [K|K]; auto. left. right. exact K.
Qed.

Definition fits (rd : rdata) (r u : list nat) : Prop := r_heap rd = [] \/ complete (r_heap rd) r u.
Lemma fits_incl rd r u u' : (forall x, In x u' -> In x u) -> fits rd r u -> fits rd r u'.
Proof. intros H [K|K]; [left; exact K|right]. intros a c b (A1 & A2 & A3). apply K. split; [exact A1|]. split; [apply H, A2|exact A3]. Qed.
Lemma fits_Forall2 rds rs u u' : (forall x, In x u' -> In x u) -> Forall2 (fun rd r => fits rd r u) rds rs -> Forall2 (fun rd r => fits rd r u') rds rs.
Proof. intros H. induction 1; constructor; auto. eapply fits_incl; eauto. Qed.

Lemma free_unrouted rs u j : Permutation (concat rs ++ u) (seq 1 (N - 1)) -> ci_free N rs j <-> In j u.
Proof.
  intro P. assert (Nd := nodups N _ _ P). split.
  - intros [B F]. assert (Hj : In j (seq 1 (N - 1))) by (apply in_seq; lia). apply (Permutation_in _ (Permutation_sym P)), in_app_or in Hj. tauto.
  - intro H. split. eapply bounds; [exact P|auto]. eapply nodup_app_sep; eauto.
Qed.

Lemma admissible_adm rs u r p j : Permutation (concat rs ++ u) (seq 1 (N - 1)) -> (p <= length r)%nat ->
  admissible N D d C L ceps seps minimize_K rs r p j <-> In j u /\ adm r (node_before p r) j (node_after p r).
Proof.
  intros P Hp. unfold admissible, adm, feasible, extra_cost. rewrite (free_unrouted rs u j P), (demand_perm _ _ _ (insert_at_perm p j r)), insert_at_cost by exact Hp.
  replace (route_cost D [j]) with (D 0%nat j + D j 0%nat) by (unfold route_cost; cbn; lia).
  replace (route_cost D r + delta D (node_before p r) j (node_after p r) - route_cost D r) with (delta D (node_before p r) j (node_after p r)) by lia. tauto.
Qed.
Lemma preference_pref r p j : (p <= length r)%nat -> preference D strain r p j = pref_of (node_before p r) j (node_after p r).
Proof.
  intro Hp. unfold preference, pref_of, extra_cost. destruct (strain (node_before p r) j (node_after p r)) as [s1 s2]. cbn [fst snd]. f_equal. rewrite insert_at_cost by exact Hp.
  replace (route_cost D [j]) with (D 0%nat j + D j 0%nat) by (unfold route_cost; cbn; lia). lia.
Qed.
Lemma full_complete rs u r : Permutation (concat rs ++ u) (seq 1 (N - 1)) -> complete [] r u -> full N D d C L ceps seps minimize_K rs r.
Proof.
  intros P H p j A. assert (Hp : (p <= length r)%nat) by apply A. apply (admissible_adm rs u r p j P Hp) in A as [A1 A2].
  destruct (H (node_before p r) j (node_after p r)) as (e & [] & _). split; [apply edge_at, Hp|]. auto.
Qed.

Lemma rd_ok_fun rd r r' : rdok rd r -> rdok rd r' -> r = r'.
Proof. intros (E & _) (E' & _). rewrite E in E'. injection E' as E'. apply app_inv_tail in E'. exact E'. Qed.
Lemma rds_ok_fun rds : forall rs rs', Forall2 rdok rds rs -> Forall2 rdok rds rs' -> rs = rs'.
Proof. induction rds as [|rd t IH]; intros rs rs' H H'; inversion H; inversion H'; subst; auto. f_equal; auto. eapply rd_ok_fun; eauto. Qed.

(** How a route is begun, from what is taken off the stack *)
Variable first_stops : (nat -> Prop) -> list nat -> Prop.
Hypothesis stops_ok : forall u x (fr : nat -> Prop), (forall j, fr j <-> In j u) -> (forall j, In j u -> (1 <= j < N)%nat) -> picked S u x -> first_stops fr (chosen_of x).

Notation cinv := (cinv ceps seps N D d C L strain S).
Notation rule := (ci_rule N D d C L ceps seps minimize_K strain first_stops).

Lemma turn_rule st os ds : cinv st os ds -> Forall2 (fun rd r => fits rd r (c_unrouted st)) (c_open st) os -> c_unrouted st <> [] -> exists st' os' ds' pts,
  turn ceps seps D d C L strain cb ident st = Some (Continue st', pts) /\ cinv st' os' ds' /\ (length (c_unrouted st') < length (c_unrouted st))%nat /\
  Forall2 (fun rd r => fits rd r (c_unrouted st')) (c_open st') os' /\ rule (mkci ds os (c_turn st)) (mkci ds' os' (c_turn st')).
Proof.
  intros I Hfit Hu. destruct (turn_spec ceps seps N D d C L strain cb ident S default_ok d0 seeds_all st os ds I Hu) as (st' & os' & ds' & pts & Et & I' & Hlt & _ & Hl').
  exists st', os', ds', pts. split; [exact Et|]. split; [exact I'|]. split; [exact Hlt|].
  assert (Io' := ci_o _ _ _ _ _ _ _ _ _ _ _ _ I'). assert (Id' := ci_d _ _ _ _ _ _ _ _ _ _ _ _ I'). assert (Ip' := ci_perm _ _ _ _ _ _ _ _ _ _ _ _ I').
  destruct I as [Io Id Ip Ine Il Ih (sl & Esl & Isl) It]. unfold turn in Et. set (k := c_turn st) in *.
  assert (Eo := Forall2_length2 _ _ _ Io). assert (Hk : (k < length os)%nat) by (rewrite <- Eo; exact It).
  set (rd0 := nth k (c_open st) (mkrd [] 0 0 [])) in *. set (r0 := nth k os []).
  assert (Er0 : nth_error os k = Some r0) by (apply nth_error_nth'; exact Hk).
  assert (R0 : rdok rd0 r0) by (apply Forall2_nth; auto).
  assert (F0 : fits rd0 r0 (c_unrouted st)) by (apply (Forall2_nth (fun rd r => fits rd r (c_unrouted st))); auto).
  assert (H0 : Forall (entry_ok D d C strain) (r_heap rd0)) by (apply (proj1 (Forall_forall _ _) Ih), nth_In, It).
  assert (Hr0 : In r0 (os ++ ds)) by (apply in_or_app; left; apply nth_In, Hk).
  assert (Br0 : forall x, In x r0 -> (1 <= x < N)%nat) by (intros x Hx; eapply bounds; [exact Ip|left; apply in_concat; exists r0; auto]).
  assert (Nu : NoDup (c_unrouted st)) by (eapply nodup_app_r, (nodups N), Ip).
  destruct (match r_heap rd0 with [] => push_edges ceps seps D d C L strain ident (c_unrouted st) (edges (r_route rd0)) rd0 (c_tick st) | _ => (rd0, c_tick st) end) as [rd1 t1] eqn:E1.
  assert (G1 : grown_rd D d C strain rd0 rd1 /\ complete (r_heap rd1) r0 (c_unrouted st)).
  { destruct (r_heap rd0) eqn:Eh.
    - apply push_edges_spec in E1 as [G F]. split; [exact G|]. intros a c b (A1 & A2 & A3). apply (offered_adm rd0 _ r0); [exact R0| |exact A3]. apply F; [|exact A2]. destruct R0 as (-> & _). exact A1.
    - inversion E1; subst. split; [apply grown_refl|]. destruct F0 as [F0|F0]; [rewrite Eh in F0; discriminate|exact F0]. }
  destruct G1 as [G1 C1]. assert (R1 := grown_ok _ _ _ _ _ _ _ G1 R0). assert (H1 : Forall (entry_ok D d C strain) (r_heap rd1)) by (apply G1, H0).
  pose proof (pops_rule (length (r_heap rd1)) rd1 r0 (c_unrouted st) (le_n _) R1 H1 C1) as P.
  assert (Hnext : turn_after (mkci ds os k) = if Nat.eqb (Datatypes.S k) (length (c_open st)) then 0%nat else Datatypes.S k) by (unfold turn_after; cbn; rewrite Eo; reflexivity).
  rewrite <- Hnext in Et.
  destruct (pops ceps d C cb (length (r_heap rd1)) rd1 (c_unrouted st)) as [[rd2|c rd2 es]|]; [| |easy].
  - (* nothing inserted *)
    destruct P as [-> Cr]. cbv zeta in Et. cbn [r_heap with_heap] in Et. destruct (c_unrouted st) as [|y ys] eqn:Eu; [easy|]. rewrite <- Eu in *.
    rewrite Esl in Et. pose proof (pick_spec S sl (c_unrouted st) Isl) as PK. destruct (pick_seed (map seed_custs sl) (c_unrouted st)) as [[chosen t]|]; [|discriminate].
    destruct PK as (x & sl' & -> & -> & Px & _). injection Et as <- _. cbn [c_open c_done c_unrouted c_turn] in *.
    assert (Eos : os' = replace k (chosen_of x) os).
    { eapply rds_ok_fun; [exact Io'|]. rewrite <- replace_set by exact Hk. rewrite set_nth_twice. apply set_nth_Forall2; [exact Io|]. apply rd_new_ok; [exact d0|apply chosen_nonempty]. }
    assert (Eds : ds' = ds ++ [r0]). { eapply rds_ok_fun; [exact Id'|]. apply Forall2_app; [exact Id|]. constructor; [exact R1|constructor]. }
    split.
    + rewrite Eos, <- replace_set, set_nth_twice by exact Hk. apply set_nth_Forall2.
      * eapply fits_Forall2; [|exact Hfit]. intros v Hv. apply in_del_all in Hv. tauto.
      * left. unfold rd_new. destruct (chosen_of x); reflexivity.
    + rewrite Eos, Eds. apply (ci_finish _ _ _ _ _ _ _ _ _ _ (mkci ds os k) r0 (chosen_of x)).
      * exact Er0.
      * apply (full_complete _ (c_unrouted st)); [exact Ip|exact Cr].
      * apply (stops_ok (c_unrouted st)); [intro v; apply free_unrouted, Ip| |exact Px]. intros v Hv. eapply bounds; [exact Ip|auto].
  - (* customer c inserted *)
    destruct P as (a & b & Ad & Best & Ees & Er2 & Ec2 & Ed2 & Keep). destruct Ad as (Ad1 & Ad2 & Ad3).
    destruct (insert_between_at a b c r0 Ad1) as (p & Hp & Ha & Hb & Hi).
    destruct (insert_between_split a b c (0%nat :: r0 ++ [0%nat]) Ad1) as (pre & post & Esp & Einsp).
    set (r2 := insert_at p c r0). assert (Hc2 : route_cost D r2 = route_cost D r0 + delta D a c b) by (unfold r2; rewrite insert_at_cost by exact Hp; rewrite Ha, Hb; reflexivity).
    assert (Pr2 : Permutation r2 (c :: r0)) by apply insert_at_perm.
    assert (R2 : rdok rd2 r2). { split; [rewrite Er2; exact Hi|]. split; [rewrite Ec2, Hc2; reflexivity|]. intro Es. rewrite Ed2. apply (cap_insert rd1 r0); auto. }
    assert (Bc : (1 <= c < N)%nat) by (eapply bounds; [exact Ip|auto]).
    cbv zeta in Et. destruct (push_edges ceps seps D d C L strain ident (del c (c_unrouted st)) es rd2 t1) as [rd3 t3] eqn:E2.
    apply push_edges_spec in E2 as [G2 F2]. assert (R3 := grown_ok _ _ _ _ _ _ _ G2 R2).
    assert (C3 : complete (r_heap rd3) r2 (del c (c_unrouted st))).
    { intros x y z (A1 & A2 & A3). assert (A2' := A2). apply in_del in A2 as [A2 A2n].
      assert (Ez : 0%nat :: r2 ++ [0%nat] = pre ++ a :: c :: b :: post) by (rewrite <- Einsp, Hi; reflexivity). rewrite Ez in A1. apply edges_insert in A1. rewrite <- Esp in A1.
      destruct A1 as [A1|[A1|A1]].
      - destruct (Keep x y z) as (e & He & Fe); auto.
        { split; [exact A1|]. split; [exact A2|]. apply (adm_shrink r0 r2 a c b x y z); auto. }
        exists e. split; [|exact Fe]. apply G2, He.
      - inversion A1; subst x z. apply (offered_adm rd2 _ r2); auto. apply F2; [rewrite Ees; cbn; auto|exact A2'].
      - inversion A1; subst x z. apply (offered_adm rd2 _ r2); auto. apply F2; [rewrite Ees; cbn; auto|exact A2']. }
    assert (BI : best_insertion N D d C L ceps seps minimize_K strain (ci_routes (mkci ds os k)) r0 p c).
    { split.
      - apply (admissible_adm _ (c_unrouted st)); [exact Ip|exact Hp|]. rewrite Ha, Hb. auto.
      - intros q i A. assert (Hq : (q <= length r0)%nat) by apply A. rewrite !preference_pref by assumption. rewrite Ha, Hb. apply Best.
        apply (admissible_adm _ (c_unrouted st)) in A; [|exact Ip|exact Hq]. split; [apply edge_at, Hq|exact A]. }
    assert (Hdel : forall v, In v (del c (c_unrouted st)) -> In v (c_unrouted st)) by (intros v Hv; apply in_del in Hv; tauto).
    assert (PP : Permutation (concat (set_nth k r2 os ++ ds) ++ del c (c_unrouted st)) (seq 1 (N - 1))) by (eapply Permutation_trans; [apply insert_perm; auto|exact Ip]).
    assert (Fit3 : Forall2 (fun rd r => fits rd r (del c (c_unrouted st))) (set_nth k rd3 (c_open st)) (set_nth k r2 os)).
    { apply set_nth_Forall2; [eapply fits_Forall2; [exact Hdel|exact Hfit]|right; exact C3]. }
    destruct (match r_heap rd3, del c (c_unrouted st) with [], _ :: _ => true | _, _ => false end) eqn:EB.
    + assert (Eh : r_heap rd3 = [] /\ del c (c_unrouted st) <> []) by (destruct (r_heap rd3), (del c (c_unrouted st)); try discriminate; split; easy). destruct Eh as [Eh Hu2].
      rewrite Eh in Et, C3. set (u2 := del c (c_unrouted st)) in *. destruct u2 as [|y ys] eqn:Eu2; [easy|]. rewrite <- Eu2 in *. clear EB.
      assert (Isl2 : stack_ok S sl u2) by (eapply stack_ok_incl; [exact Hdel|exact Isl]).
      rewrite Esl in Et. pose proof (pick_spec S sl u2 Isl2) as PK. destruct (pick_seed (map seed_custs sl) u2) as [[chosen t]|]; [|discriminate].
      destruct PK as (x & sl' & -> & -> & Px & _). injection Et as <- _. cbn [c_open c_done c_unrouted c_turn] in *.
      assert (Eos : os' = replace k (chosen_of x) os).
      { eapply rds_ok_fun; [exact Io'|]. rewrite <- replace_set by exact Hk. rewrite set_nth_twice. apply set_nth_Forall2; [exact Io|]. apply rd_new_ok; [exact d0|apply chosen_nonempty]. }
      assert (Eds : ds' = ds ++ [r2]). { eapply rds_ok_fun; [exact Id'|]. apply Forall2_app; [exact Id|]. constructor; [exact R3|constructor]. }
      split.
      * rewrite Eos, <- replace_set, set_nth_twice by exact Hk. apply set_nth_Forall2.
        -- eapply fits_Forall2; [|exact Hfit]. intros v Hv. apply in_del_all in Hv. apply Hdel. tauto.
        -- left. unfold rd_new. destruct (chosen_of x); reflexivity.
      * rewrite Eos, Eds. rewrite replace_set in PP by exact Hk.
        apply (ci_insert_finish _ _ _ _ _ _ _ _ _ _ (mkci ds os k) r0 p c (chosen_of x)); [exact Er0|exact BI| |].
        -- apply (full_complete _ u2); [exact PP|exact C3].
        -- apply (stops_ok u2); [intro v; apply free_unrouted; exact PP| |exact Px]. intros v Hv. eapply bounds; [exact PP|auto].
    + assert (Et' : st' = mkcs (set_nth k rd3 (c_open st)) (c_done st) (del c (c_unrouted st)) (c_seeds st) (turn_after (mkci ds os k)) t3).
      { destruct (r_heap rd3); [destruct (del c (c_unrouted st)); [|discriminate]|]; injection Et as <- _; reflexivity. }
      clear Et. subst st'. cbn [c_open c_done c_unrouted c_turn] in *.
      assert (Eos : os' = set_nth k r2 os) by (eapply rds_ok_fun; [exact Io'|]; apply set_nth_Forall2; auto).
      assert (Eds : ds' = ds) by (eapply rds_ok_fun; [exact Id'|exact Id]).
      split; [rewrite Eos; exact Fit3|]. rewrite Eos, Eds, replace_set by exact Hk. apply (ci_insert _ _ _ _ _ _ _ _ _ _ (mkci ds os k) r0 p c); [exact Er0|exact BI].
Qed.

Notation steps := (ci_steps N D d C L ceps seps minimize_K strain first_stops).
Lemma main_loop_rule s0 : forall fuel st os ds, (length (c_unrouted st) <= fuel)%nat -> cinv st os ds -> Forall2 (fun rd r => fits rd r (c_unrouted st)) (c_open st) os ->
  steps s0 (mkci ds os (c_turn st)) -> exists s pts,
  main_loop ceps seps D d C L strain cb ident fuel st = Some (Solution (encode (ci_routes s)), pts) /\ steps s0 s /\ (forall j, ~ ci_free N (ci_routes s) j).
Proof.
  induction fuel as [|fuel IH]; intros st os ds Hf I Hfit Hs; cbn [main_loop].
  - destruct (c_unrouted st) eqn:E; [|cbn in Hf; lia]. exists (mkci ds os (c_turn st)), []. destruct I as [Io Id Ip Ine Il _ _ _]. rewrite (export_both D d C _ _ os ds) by auto.
    split; [reflexivity|]. split; [exact Hs|]. intros j Hj. apply (free_unrouted _ (c_unrouted st)) in Hj; [|exact Ip]. rewrite E in Hj. destruct Hj.
  - destruct (c_unrouted st) eqn:E.
    + exists (mkci ds os (c_turn st)), []. destruct I as [Io Id Ip Ine Il _ _ _]. rewrite (export_both D d C _ _ os ds) by auto.
      split; [reflexivity|]. split; [exact Hs|]. intros j Hj. apply (free_unrouted _ (c_unrouted st)) in Hj; [|exact Ip]. rewrite E in Hj. destruct Hj.
    + assert (Hu : c_unrouted st <> []) by (rewrite E; easy). rewrite <- E in *. destruct (turn_rule st os ds I Hfit Hu) as (st' & os' & ds' & pts & Et & I' & Hlt & Hfit' & Hr). rewrite Et.
      assert (Hf' : (length (c_unrouted st') <= fuel)%nat) by lia.
      destruct (IH st' os' ds' Hf' I' Hfit') as (s & pts2 & -> & C1 & C2). { eapply ci_more; [exact Hs|exact Hr]. }
      exists s, (pts ++ pts2). auto.
Qed.

Lemma initial_begun : forall K sl u os, Permutation (concat os ++ u) (seq 1 (N - 1)) -> begun N first_stops os -> stack_ok S sl u ->
  match initial_routes D d K (map seed_custs sl) u with
  | None => True
  | Some (rds, seeds, u') => exists bs, length bs = K /\ Forall2 rdok rds bs /\ begun N first_stops (os ++ bs)
  end.
Proof.
  induction K as [|K IH]; intros sl u os Hp Hbg Hst; cbn [initial_routes].
  - exists []. rewrite app_nil_r. auto.
  - pose proof (pick_spec S sl u Hst) as PK. destruct (pick_seed (map seed_custs sl) u) as [[chosen t]|]; [|exact I].
    destruct PK as (x & sl' & -> & -> & Px & Hst'). assert (Nu : NoDup u) by (eapply nodup_app_r, (nodups N), Hp).
    assert (Hin : forall c, In c (chosen_of x) -> In c u) by (intros c Hc; apply chosen_in in Hc; destruct Px as [[Pa Pb] _]; destruct Hc; subst; auto).
    assert (Hp' : Permutation (concat (os ++ [chosen_of x]) ++ del_all (chosen_of x) u) (seq 1 (N - 1))).
    { rewrite <- Hp, concat_app. cbn [concat]. rewrite app_nil_r, <- app_assoc. apply Permutation_app_head, Permutation_sym, del_all_perm; auto. apply chosen_nodup. }
    specialize (IH sl' (del_all (chosen_of x) u) (os ++ [chosen_of x]) Hp').
    destruct (initial_routes D d K (map seed_custs sl') (del_all (chosen_of x) u)) as [[[rds seeds] u']|]; [|exact I].
    destruct IH as (bs & E1 & E2 & E3); auto.
    { apply begun_one; [exact Hbg|]. apply (stops_ok u); [intro v; apply free_unrouted, Hp| |exact Px]. intros v Hv. eapply bounds; [exact Hp|auto]. }
    exists (chosen_of x :: bs). rewrite <- app_assoc in E3. split; [cbn; congruence|]. split; [constructor; auto; apply rd_new_ok; [exact d0|apply chosen_nonempty]|exact E3].
Qed.

Lemma init_rule K fuel : (1 <= K)%nat -> (N <= fuel)%nat ->
  (exists rs pts, insertion_init ceps seps D d C L strain cb ident N K (map seed_custs S) fuel = Some (Solution (encode rs), pts) /\
     built_by_rule N D d C L ceps seps minimize_K strain first_stops K rs) \/
  insertion_init ceps seps D d C L strain cb ident N K (map seed_custs S) fuel = Some (RanOutOfSeeds, []).
Proof.
  intros HK Hf. unfold insertion_init. assert (St0 : stack_ok S S (seq 1 (N - 1))) by (exists []; split; [reflexivity|intros ? []]).
  pose proof (initial_spec ceps seps N D d C L strain ident S d0 seeds_all K S (range 1 N) []) as P. pose proof (initial_begun K S (range 1 N) []) as B. unfold range in *.
  destruct (initial_routes D d K (map seed_custs S) (seq 1 (N - 1))) as [[[rds seeds] u]|]; [left|right; reflexivity].
  destruct P as (sl' & bs & E1 & -> & E3 & E4 & E5 & E6 & E7 & E8); [reflexivity|constructor|intros ? ?; constructor|exact St0|]. cbn [app] in *.
  destruct B as (bs' & B1 & B2 & B3); [reflexivity|constructor|exact St0|]. assert (bs' = bs) by (eapply rds_ok_fun; [exact B2|exact E3]). subst bs'.
  assert (Hlu : (length u <= fuel)%nat). { assert (Hl := Permutation_length E4). rewrite app_length, seq_length in Hl. lia. }
  destruct (main_loop_rule (mkci [] bs 0) fuel (mkcs rds [] u (map seed_custs sl') 0 0) bs []) as (s & pts & -> & M1 & M2).
  - exact Hlu.
  - constructor; cbn; rewrite ?app_nil_r; auto. clear -E8. induction E8; constructor; auto. rewrite H. constructor. exists sl'. auto. rewrite (Forall2_length2 _ _ _ E3), E1. lia.
  - cbn. clear - E8 E3. induction E3; constructor; inversion E8; subst; auto. left. assumption.
  - apply ci_none.
  - exists (ci_routes s), pts. split; [reflexivity|]. exists bs, s. auto.
Qed.
End Default.
