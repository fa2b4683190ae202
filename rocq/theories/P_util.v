(** * Route list conversions, edge sets, best-of selection, ordered sets *)
From Verif Require Import Spec PyBase M_util M_cvrp_ops Spec_util P_base P_validate P_cvrp.
From Coq Require Import ZifyBool ZifyNat.

(** ** routes2sol and sol2routes *)

Lemma routes2sol_step_encode rs r w : customers_only r -> entry_of r w ->
  exists es, routes2sol_step (encode rs) w = encode (rs ++ es) /\ Forall customers_only es /\
             filter nonempty es = filter nonempty [r].
Proof.
  intros Hc Hw. destruct w as [l|]; cbn in Hw.
  2:{ subst r. exists []. rewrite app_nil_r. repeat split; constructor. }
  destruct Hw as (a & b & Ha & Hb & ->).
  assert (Hlast : forall p, p <> [] -> customers_only p -> Nat.eqb (last (encode rs ++ p) 0%nat) 0 = false).
  { intros p Hp Hcp. destruct (exists_last Hp) as [q [z ->]]. rewrite app_assoc, last_last.
    apply Forall_app in Hcp. destruct Hcp as [_ Hcp]. inversion Hcp. destruct z; easy. }
  assert (Henc : forall p, encode rs ++ p ++ [0%nat] = encode (rs ++ [p])).
  { intros p. rewrite encode_app. unfold encode at 3. cbn [flat_map tl]. now rewrite app_nil_r. }
  destruct r as [|x r].
  - cbn [filter nonempty]. destruct Ha as [-> | ->], Hb as [-> | ->]; cbn [app routes2sol_step Nat.eqb].
    + exists []. rewrite app_nil_r. repeat split; constructor.
    + rewrite app_nil_r, last_encode. exists []. rewrite app_nil_r. repeat split; constructor.
    + rewrite app_nil_r, last_encode. exists []. rewrite app_nil_r. repeat split; constructor.
    + rewrite last_last. cbn [Nat.eqb]. exists [[]]. rewrite <- Henc. repeat split; repeat constructor.
  - exists [x :: r]. assert (Hx : Nat.eqb x 0 = false) by (inversion Hc; destruct x; easy).
    split; [|split; [now constructor|reflexivity]]. rewrite <- Henc.
    destruct Ha as [-> | ->], Hb as [-> | ->]; cbn [app routes2sol_step Nat.eqb]; rewrite ?Hx, ?app_nil_r.
    + rewrite Hlast by easy. now rewrite <- app_assoc.
    + rewrite (app_comm_cons r), app_assoc, last_last. cbn [Nat.eqb]. reflexivity.
    + rewrite Hlast by easy. now rewrite <- app_assoc.
    + rewrite (app_comm_cons r), app_assoc, last_last. cbn [Nat.eqb]. reflexivity.
Qed.

Lemma routes2sol_gen_spec rs ws : Forall customers_only rs -> Forall2 entry_of rs ws ->
  exists es, routes2sol_gen ws = encode es /\ Forall customers_only es /\
             filter nonempty es = filter nonempty rs.
Proof.
  intros Hc HF. unfold routes2sol_gen. change [0%nat] with (encode []).
  assert (G : forall pre, Forall customers_only pre ->
    exists es, fold_left routes2sol_step ws (encode pre) = encode es /\ Forall customers_only es /\
               filter nonempty es = filter nonempty pre ++ filter nonempty rs).
  { induction HF as [|r w rs ws Hw HF IH]; intros pre Hp; cbn [fold_left].
    - exists pre. cbn [filter]. rewrite app_nil_r. auto.
    - inversion Hc as [|? ? Hcr Hcrs]; subst.
      destruct (routes2sol_step_encode pre r w Hcr Hw) as (es & E & He & Ef). rewrite E.
      destruct (IH Hcrs (pre ++ es)) as (es' & E' & He' & Ef'); [now apply Forall_app|].
      exists es'. split; [exact E'|]. split; [exact He'|]. rewrite Ef', filter_app, Ef, <- app_assoc.
      cbn [filter]. destruct (nonempty r); reflexivity. }
  apply G. constructor.
Qed.

Lemma encode_length_nonempty rs : (exists r, In r rs /\ r <> []) -> (2 < length (encode rs))%nat.
Proof.
  intros (r & Hin & Hr). apply in_split in Hin. destruct Hin as (l1 & l2 & ->).
  unfold encode. rewrite flat_map_app. cbn [flat_map length]. rewrite !app_length. cbn [length].
  destruct r; [easy|]. cbn [length]. lia.
Qed.

Lemma sol2routes_encode rs : Forall customers_only rs ->
  sol2routes (encode rs) = map wrap (filter nonempty rs).
Proof.
  intros Hc. unfold sol2routes.
  rewrite <- (split_encode rs Hc). unfold list_split. rewrite map_map.
  destruct (Nat.leb_spec (length (encode rs)) 2) as [Hl|Hl]; [|reflexivity].
  assert (E : list_split (encode rs) 0 = []).
  { rewrite split_encode by exact Hc. destruct (filter nonempty rs) as [|r q] eqn:E; [reflexivity|].
    exfalso. assert (Hin : In r (filter nonempty rs)) by (rewrite E; now left).
    apply filter_In in Hin. destruct Hin as [Hin Hr].
    assert (Hr' : r <> []) by (intros ->; discriminate).
    assert (HL : (2 < length (encode rs))%nat) by (apply encode_length_nonempty; eauto). lia. }
  unfold list_split in E. apply map_eq_nil in E. now rewrite E.
Qed.

Lemma routes2sol_wrap rs : rs <> [] -> Forall customers_only rs -> Forall (fun r => r <> []) rs ->
  routes2sol (map (fun r => Some (wrap r)) rs) = Some (encode rs).
Proof.
  intros Hn Hc He. unfold routes2sol. destruct rs as [|r0 rs0] eqn:E; [easy|]. rewrite <- E in *.
  change (map (fun r => Some (wrap r)) rs) with (map (fun r => Some (wrap r)) rs).
  assert (Em : map (fun r => Some (wrap r)) rs <> []) by (rewrite E; easy).
  destruct (map (fun r => Some (wrap r)) rs) as [|w ws] eqn:EM; [easy|]. rewrite <- EM. f_equal.
  clear Em E EM. change [0%nat] with (encode []). change rs with ([] ++ rs) at 2. generalize (@nil (list nat)) as pre.
  clear Hn r0 rs0 w ws. induction Hc as [|r rs Hr _ IH]; intros pre; [now rewrite app_nil_r|].
  inversion_clear He. cbn [map fold_left].
  replace (routes2sol_step (encode pre) (Some (wrap r))) with (encode (pre ++ [r])).
  - rewrite IH by assumption. now rewrite <- app_assoc.
  - unfold routes2sol_step, wrap. cbn [Nat.eqb]. rewrite app_assoc, last_last. cbn [Nat.eqb].
    rewrite encode_app. unfold encode at 2. cbn [flat_map tl]. rewrite app_nil_r, app_assoc. reflexivity.
Qed.

(** ** without_empty_routes *)
Lemma weR_cons x l : without_empty_routes (x :: l) =
  match without_empty_routes l with
  | y :: t => if Nat.eqb x y then y :: t else x :: y :: t
  | [] => [x] end.
Proof.
  unfold without_empty_routes. cbn [groupby].
  destruct (groupby Nat.eqb (fun n => n) l) as [|[k g] gs]; [reflexivity|]. cbn [map fst].
  destruct (Nat.eqb x k); reflexivity.
Qed.

Lemma weR_hd l : hd_error (without_empty_routes l) = hd_error l.
Proof.
  induction l as [|x l IH]; [reflexivity|]. rewrite weR_cons. destruct (without_empty_routes l) as [|y t]; [reflexivity|].
  destruct (Nat.eqb_spec x y) as [->|]; reflexivity.
Qed.

Lemma no_repeats_cons x l : no_repeats (x :: l) <-> no_repeats l /\ hd_error l <> Some x.
Proof.
  split.
  - intros H. split.
    + intros l1 l2 y ->. apply (H (x :: l1) l2 y). reflexivity.
    + intros E. destruct l as [|y l]; [discriminate|]. injection E as ->. apply (H [] l x). reflexivity.
  - intros [H1 H2] l1 l2 y E. destruct l1 as [|z l1]; injection E as -> E.
    + subst l. now apply H2.
    + now apply (H1 l1 l2 y).
Qed.

Lemma weR_no_repeats l : no_repeats (without_empty_routes l).
Proof.
  induction l as [|x l IH]; [intros [|a [|b l1]] l2 y; discriminate|]. rewrite weR_cons.
  destruct (without_empty_routes l) as [|y t] eqn:E.
  - apply no_repeats_cons. split; [exact IH|easy].
  - destruct (Nat.eqb_spec x y) as [->|Hxy]; [exact IH|]. apply no_repeats_cons. split; [exact IH|].
    cbn. congruence.
Qed.

Lemma weR_id l : no_repeats l -> without_empty_routes l = l.
Proof.
  induction l as [|x l IH]; [reflexivity|]. intros H. apply no_repeats_cons in H. destruct H as [H1 H2].
  rewrite weR_cons, IH by exact H1. destruct l as [|y t]; [reflexivity|].
  destruct (Nat.eqb_spec x y) as [->|]; [|reflexivity]. now elim H2.
Qed.

Lemma weR_app_norep p l : no_repeats p -> p <> [] -> (forall x, hd_error l = Some x -> last p 0%nat <> x) ->
  without_empty_routes (p ++ l) = p ++ without_empty_routes l.
Proof.
  induction p as [|x p IH]; intros Hn Hne Hl; [easy|].
  apply no_repeats_cons in Hn. destruct Hn as [Hn Hh]. cbn [app]. rewrite weR_cons.
  destruct p as [|y p].
  - cbn [app]. pose proof (weR_hd l) as E. destruct (without_empty_routes l) as [|z t]; [reflexivity|].
    cbn in E. specialize (Hl z (eq_sym E)). cbn in Hl. destruct (Nat.eqb_spec x z); [congruence|reflexivity].
  - rewrite IH by easy. cbn [app].
    destruct (Nat.eqb_spec x y) as [->|]; [now elim Hh|reflexivity].
Qed.

Lemma weR_encode rs : Forall customers_only rs -> Forall no_repeats rs ->
  without_empty_routes (encode rs) = encode (filter nonempty rs).
Proof.
  intros Hc. induction Hc as [|r rs Hr _ IH]; intros Hn; [reflexivity|].
  inversion Hn as [|? ? Hnr Hnrs]; subst. specialize (IH Hnrs). rewrite encode_cons, weR_cons.
  destruct r as [|x r].
  - cbn [app filter nonempty]. rewrite IH. unfold encode. reflexivity.
  - rewrite weR_app_norep; [|exact Hnr|easy|].
    + rewrite IH. cbn [app filter nonempty]. rewrite encode_cons. cbn [app].
      inversion Hr. destruct x; [easy|reflexivity].
    + intros y Hy. unfold encode in Hy. cbn in Hy. injection Hy as <-. 
      destruct (exists_last (l := x :: r)) as [q [z Ez]]; [easy|]. rewrite Ez, last_last.
      rewrite Ez in Hr. apply Forall_app in Hr. destruct Hr as [_ Hr]. now inversion Hr.
Qed.

(** ** sol2edgeset *)
Lemma edgeset_spec sol b e : In e (sol2edgeset sol b) <->
  exists l1 x y l2, sol = l1 ++ x :: y :: l2 /\ e = if b || Nat.ltb x y then (x, y) else (y, x).
Proof.
  unfold sol2edgeset, range. rewrite in_map_iff. split.
  - intros (i & <- & Hi). apply in_seq in Hi.
    exists (firstn i sol), (at_ sol i), (at_ sol (i + 1)), (skipn (i + 2) sol). split; [|reflexivity].
    assert (Hs : forall k, (k < length sol)%nat -> skipn k sol = at_ sol k :: skipn (k + 1) sol).
    { clear. induction sol as [|z sol IH]; intros k Hk; [cbn in Hk; lia|]. destruct k as [|k]; [reflexivity|].
      cbn [skipn plus]. rewrite (IH k) by (cbn in Hk; lia). reflexivity. }
    rewrite <- (firstn_skipn i sol) at 1. f_equal. rewrite (Hs i) by lia. f_equal.
    rewrite (Hs (i + 1)%nat) by lia. f_equal. f_equal. lia.
  - intros (l1 & x & y & l2 & -> & ->). exists (length l1).
    assert (Ea : at_ (l1 ++ x :: y :: l2) (length l1) = x).
    { unfold at_. rewrite app_nth2 by lia. now rewrite Nat.sub_diag. }
    assert (Eb : at_ (l1 ++ x :: y :: l2) (length l1 + 1) = y).
    { unfold at_. rewrite app_nth2 by lia. replace (length l1 + 1 - length l1)%nat with 1%nat by lia. reflexivity. }
    rewrite Ea, Eb. split; [reflexivity|]. apply in_seq. rewrite app_length. cbn [length]. lia.
Qed.

(** Edges of an encoding are edges of its closed routes. *)
Lemma encode_edges rs x y :
  (exists l1 l2, encode rs = l1 ++ x :: y :: l2) <->
  (exists r l1 l2, In r rs /\ wrap r = l1 ++ x :: y :: l2).
Proof.
  induction rs as [|r rs IH].
  - split.
    + intros (l1 & l2 & E). destruct l1 as [|a [|b l1]]; discriminate.
    + intros (r & l1 & l2 & [] & _).
  - rewrite encode_cons. split.
    + intros (l1 & l2 & E).
      change (0%nat :: r ++ encode rs) with (0%nat :: r ++ [0%nat] ++ tl (encode rs)) in E.
      destruct (Nat.le_gt_cases (length l1) (length r)) as [Hle|Hgt].
      * (* edge within wrap r *)
        rewrite app_assoc, app_comm_cons in E. fold (wrap r) in E.
        replace (l1 ++ x :: y :: l2) with ((l1 ++ [x; y]) ++ l2) in E by (rewrite <- app_assoc; reflexivity).
        symmetry in E. destruct (app_prefix _ _ _ _ E) as (q & Eq & _).
        { unfold wrap. rewrite app_length. cbn [length]. rewrite app_length. cbn [length]. lia. }
        exists r, l1, q. split; [now left|]. rewrite Eq, <- app_assoc. reflexivity.
      * rewrite app_comm_cons in E. cbn [app] in E.
        change (0%nat :: tl (encode rs)) with (encode rs) in E.
        destruct (app_prefix (0%nat :: r) _ _ _ E) as (q & -> & Eq); [cbn [length]; lia|].
        destruct IH as [IH _]. destruct IH as (r' & m1 & m2 & Hin & Em); [eauto|].
        exists r', m1, m2. split; [now right|exact Em].
    + intros (r' & l1 & l2 & [<-|Hin] & E).
      * exists l1, (l2 ++ tl (encode rs)).
        change (0%nat :: r ++ encode rs) with (0%nat :: r ++ [0%nat] ++ tl (encode rs)).
        rewrite app_assoc, app_comm_cons. fold (wrap r). rewrite E, <- app_assoc. reflexivity.
      * destruct IH as [_ IH]. destruct IH as (m1 & m2 & Em); [eauto|].
        exists (0%nat :: r ++ m1), m2. rewrite Em. cbn. now rewrite <- app_assoc.
Qed.

Lemma rev_edge (l l1 l2 : list nat) x y : l = l1 ++ x :: y :: l2 -> rev l = rev l2 ++ y :: x :: rev l1.
Proof. intros ->. rewrite rev_app_distr. cbn [rev]. rewrite <- !app_assoc. reflexivity. Qed.

Lemma edge_norm_sym x y : (if Nat.ltb x y then (x, y) else (y, x)) = (if Nat.ltb y x then (y, x) else (x, y)).
Proof. destruct (Nat.ltb_spec x y), (Nat.ltb_spec y x); try lia; try reflexivity. assert (x = y) by lia. now subst. Qed.

Lemma wrap_rev r : wrap (rev r) = rev (wrap r).
Proof. unfold wrap. cbn [rev]. rewrite rev_app_distr. reflexivity. Qed.

Lemma edgeset_false_same rs rs' e : same_routes rs rs' ->
  In e (sol2edgeset (encode rs) false) -> In e (sol2edgeset (encode rs') false).
Proof.
  intros (fs & HF & HP) Hin. apply edgeset_spec in Hin. destruct Hin as (l1 & x & y & l2 & E & ->).
  cbn [orb]. 
  assert (Hr : exists r m1 m2, In r rs /\ wrap r = m1 ++ x :: y :: m2) by (apply encode_edges; eauto).
  destruct Hr as (r & m1 & m2 & Hr & Em).
  assert (exists f, In f fs /\ same_dir r f) as (f & Hf & Hd).
  { clear -HF Hr. induction HF as [|a b rs fs Hab HF IH]; [easy|]. destruct Hr as [->|Hr].
    - exists b. split; [now left|exact Hab].
    - destruct (IH Hr) as (f & Hf & Hd). exists f. split; [now right|exact Hd]. }
  assert (Hf' : In f rs') by (eapply Permutation_in; eassumption).
  apply edgeset_spec. destruct Hd as [->| ->].
  - destruct (proj2 (encode_edges rs' x y)) as (k1 & k2 & Ek); [eauto|].
    exists k1, x, y, k2. split; [exact Ek|reflexivity].
  - destruct (proj2 (encode_edges rs' y x)) as (k1 & k2 & Ek).
    { exists (rev r), (rev m2), (rev m1). split; [exact Hf'|]. rewrite wrap_rev. now apply rev_edge. }
    exists k1, y, x, k2. split; [exact Ek|]. cbn [orb]. apply edge_norm_sym.
Qed.

(** ** is_better_sol and best-of *)
Lemma is_better_spec mk f1 k1 f2 k2 :
  is_better_sol (Some f2) (Some k2) (Some f1) (Some k1) mk = true <-> beats mk f1 k1 f2 k2.
Proof. unfold is_better_sol, beats. destruct mk; lia. Qed.

Lemma beats_irrefl mk f k : ~ beats mk f k f k.
Proof. unfold beats. destruct mk; lia. Qed.
Lemma beats_trans mk f1 k1 f2 k2 f3 k3 : beats mk f1 k1 f2 k2 -> beats mk f2 k2 f3 k3 -> beats mk f1 k1 f3 k3.
Proof. unfold beats. destruct mk; lia. Qed.
Lemma beats_total mk f1 k1 f2 k2 : beats mk f1 k1 f2 k2 \/ beats mk f2 k2 f1 k1 \/
  (f1 = f2 /\ (mk = true -> k1 = k2)).
Proof. unfold beats. destruct mk; lia. Qed.

Lemma best_of_spec {S} mk (cands : list (S * Z * nat)) :
  match best_of mk cands with
  | None => cands = []
  | Some b => exists l1 l2, cands = l1 ++ b :: l2 /\
      (forall c, In c l1 -> cbeats mk b c) /\ (forall c, In c l2 -> ~ cbeats mk c b)
  end.
Proof.
  unfold best_of.
  assert (G : forall pre best,
    match best with None => pre = [] | Some b => exists l1 l2, pre = l1 ++ b :: l2 /\
      (forall c, In c l1 -> cbeats mk b c) /\ (forall c, In c l2 -> ~ cbeats mk c b) end ->
    match fold_left (best_step mk) cands best with
    | None => pre ++ cands = []
    | Some b => exists l1 l2, pre ++ cands = l1 ++ b :: l2 /\
      (forall c, In c l1 -> cbeats mk b c) /\ (forall c, In c l2 -> ~ cbeats mk c b) end).
  { induction cands as [|c cands IH]; intros pre best H; cbn [fold_left]; [now rewrite app_nil_r|].
    replace (pre ++ c :: cands) with ((pre ++ [c]) ++ cands) by (rewrite <- app_assoc; reflexivity).
    apply IH. clear IH. destruct c as [[s f] k]. unfold best_step.
    destruct best as [[[bs bf] bk]|].
    - destruct H as (l1 & l2 & -> & H1 & H2).
      destruct (is_better_sol _ _ _ _ _) eqn:E.
      + apply is_better_spec in E. exists (l1 ++ (bs, bf, bk) :: l2), []. split; [reflexivity|].
        split; [|easy]. intros c' Hc'. apply in_app_or in Hc'. destruct Hc' as [Hc'|[<-|Hc']].
        * specialize (H1 c' Hc'). unfold cbeats in *. cbn [fst snd] in *. eapply beats_trans; eassumption.
        * exact E.
        * specialize (H2 c' Hc'). unfold cbeats, beats in *. cbn [fst snd] in *. destruct mk; lia.
      + exists l1, (l2 ++ [(s, f, k)]). split; [rewrite <- app_assoc; reflexivity|]. split; [exact H1|].
        intros c' Hc'. apply in_app_or in Hc'. destruct Hc' as [Hc'|[<-|[]]]; [now apply H2|].
        unfold cbeats. cbn [fst snd]. intros HB. apply is_better_spec in HB. congruence.
    - subst pre. cbn. exists [], []. split; [reflexivity|]. split; easy. }
  apply (G [] None). reflexivity.
Qed.

(** ** OrderedDictSet *)
Lemma existsb_In e l : existsb (Nat.eqb e) l = true <-> In e l.
Proof.
  rewrite existsb_exists. split.
  - intros (x & Hx & E). apply Nat.eqb_eq in E. now subst.
  - intros H. exists e. split; [exact H|apply Nat.eqb_refl].
Qed.

Lemma dict_add_In e l k : In k (dict_add e l) <-> k = e \/ In k l.
Proof.
  unfold dict_add. destruct (existsb (Nat.eqb e) l) eqn:E.
  - apply existsb_In in E. split; [auto|]. intros [->|H]; auto.
  - rewrite in_app_iff. cbn. split; intros [H|H]; auto. destruct H; auto; easy.
Qed.

Lemma dict_add_NoDup e l : NoDup l -> NoDup (dict_add e l).
Proof.
  intros H. unfold dict_add. destruct (existsb (Nat.eqb e) l) eqn:E; [exact H|].
  assert (He : ~ In e l) by (intros Hin; apply existsb_In in Hin; congruence).
  clear E. induction H as [|x l Hx Hl IH]; cbn; [constructor; [easy|constructor]|].
  constructor.
  - rewrite in_app_iff. intros [Hin|[->|[]]]; [easy|]. apply He. now left.
  - apply IH. intros Hin. apply He. now right.
Qed.

Lemma dict_del_In e l k : In k (dict_del e l) <-> k <> e /\ In k l.
Proof.
  unfold dict_del. rewrite filter_In. destruct (Nat.eqb_spec e k) as [->|Hk]; cbn.
  - intuition congruence.
  - intuition congruence.
Qed.

Lemma dict_del_NoDup e l : NoDup l -> NoDup (dict_del e l).
Proof. apply NoDup_filter. Qed.

Lemma diff_In c : forall l k, In k (fold_left (fun l k => dict_del k l) c l) <-> ~ In k c /\ In k l.
Proof.
  induction c as [|e c IH]; intros l k; cbn [fold_left].
  - split; [cbn; tauto|tauto].
  - rewrite IH, dict_del_In. cbn. split; intros H; intuition.
Qed.

Lemma diff_NoDup c : forall l, NoDup l -> NoDup (fold_left (fun l k => dict_del k l) c l).
Proof. induction c as [|e c IH]; intros l H; cbn; [exact H|]. now apply IH, dict_del_NoDup. Qed.

Lemma init_In c : forall l k, In k (fold_left (fun l k => dict_add k l) c l) <-> In k c \/ In k l.
Proof.
  induction c as [|e c IH]; intros l k; cbn [fold_left]; [cbn; tauto|].
  rewrite IH, dict_add_In. cbn. split; intros H; intuition.
Qed.

Lemma init_NoDup c : forall l, NoDup l -> NoDup (fold_left (fun l k => dict_add k l) c l).
Proof. induction c as [|e c IH]; intros l H; cbn; [exact H|]. now apply IH, dict_add_NoDup. Qed.

Lemma ods_step_In s m o : (forall k, In k (ods_keys s) <-> m k) ->
  forall k, In k (ods_keys (ods_step s o)) <-> set_step m o k.
Proof.
  intros H k. destruct o as [e|e|c|i]; cbn.
  - rewrite dict_add_In, H. reflexivity.
  - unfold ods_remove. destruct (existsb (Nat.eqb e) (ods_keys s)) eqn:E.
    + cbn. rewrite dict_del_In, H. reflexivity.
    + rewrite H. split; [|tauto]. intros Hm. split; [|exact Hm]. intros ->.
      apply H, existsb_In in Hm. congruence.
  - rewrite diff_In, H. reflexivity.
  - apply H.
Qed.

Lemma ods_step_NoDup s o : NoDup (ods_keys s) -> NoDup (ods_keys (ods_step s o)).
Proof.
  intros H. destruct o as [e|e|c|i]; cbn.
  - now apply dict_add_NoDup.
  - unfold ods_remove. destruct (existsb _ _); cbn; [now apply dict_del_NoDup|exact H].
  - now apply diff_NoDup.
  - exact H.
Qed.

Lemma ods_refines c ops :
  NoDup (ods_keys (ods_run c ops)) /\ forall k, In k (ods_keys (ods_run c ops)) <-> set_run c ops k.
Proof.
  unfold ods_run, set_run. 
  assert (G : forall s m, NoDup (ods_keys s) -> (forall k, In k (ods_keys s) <-> m k) ->
    NoDup (ods_keys (fold_left ods_step ops s)) /\
    forall k, In k (ods_keys (fold_left ods_step ops s)) <-> fold_left set_step ops m k).
  { induction ops as [|o ops IH]; intros s m Hn Hm; cbn [fold_left]; [auto|].
    apply IH; [now apply ods_step_NoDup|now apply ods_step_In]. }
  apply G; cbn.
  - apply init_NoDup. constructor.
  - intros k. rewrite init_In. cbn. tauto.
Qed.

(** Iteration order is insertion order: the order of the keys only changes by removal and
    by appending new elements at the end. *)
Lemma dict_del_app e l1 l2 : dict_del e (l1 ++ l2) = dict_del e l1 ++ dict_del e l2.
Proof. apply filter_app. Qed.

Definition cache_ok (s : ods) : Prop :=
  match ods_cache s with None => True | Some l => l = ods_keys s /\ l <> [] end.

Lemma cache_step s o : cache_ok s ->
  match o with OAdd e => ~ In e (ods_iter s) | OGet _ => ods_iter s <> [] | _ => True end ->
  cache_ok (ods_step s o).
Proof.
  unfold cache_ok, ods_iter. intros H G. destruct o as [e|e|c|i]; cbn; try exact I.
  - destruct (ods_cache s) as [[|x l]|]; [now destruct H|destruct H as [EH _]|exact I].
    rewrite <- EH in *. split; [|easy]. unfold dict_add. destruct (existsb _ _) eqn:E; [|reflexivity].
    apply existsb_In in E. contradiction.
  - unfold ods_remove. destruct (existsb _ _); cbn; [exact I|exact H].
  - destruct (ods_cache s) as [l|]; [exact H|]. split; [reflexivity|exact G].
Qed.

Lemma ods_careful_get c ops : ods_careful (ods_init c) ops -> forall i,
  snd (ods_getitem (ods_run c ops) i) = nth_error (ods_iter (ods_run c ops)) i.
Proof.
  intros HC i.
  assert (G : forall s, cache_ok s -> ods_careful s ops -> cache_ok (fold_left ods_step ops s)).
  { clear HC. induction ops as [|o ops IH]; intros s Hs Hc; cbn [fold_left]; [exact Hs|].
    destruct Hc as [Ho Hc]. apply IH; [|exact Hc]. now apply cache_step. }
  specialize (G (ods_init c) I HC). fold (ods_run c ops) in G.
  unfold ods_getitem, ods_iter. cbn. unfold cache_ok in G. destruct (ods_cache (ods_run c ops)) as [l|]; [|reflexivity].
  destruct G as [-> _]. reflexivity.
Qed.
