(** * normalize_solution, recalculate_objective, D2D_c *)
From Verif Require Import Spec PyBase M_util M_cvrp_ops P_base P_validate.
From Coq Require Import Sorting.Sorted ZifyBool ZifyNat.

(** ** normalize_solution *)
Definition orient1 (r : list nat) : list nat :=
  match r with [] => [] | x :: _ => if Nat.ltb (last r 0%nat) x then rev r else r end.

Lemma orient_all_some rs : Forall (fun r => r <> []) rs -> orient_all rs = Some (map orient1 rs).
Proof.
  induction 1 as [|r rs Hr _ IH]; [reflexivity|]. cbn. rewrite IH. destruct r as [|x r]; [easy|].
  unfold orient, orient1. destruct (Nat.ltb _ x); reflexivity.
Qed.

Lemma fold_encode rs acc :
  fold_left (fun nsol nroute => nsol ++ (nroute ++ [0%nat])) rs acc = acc ++ flat_map (fun r => r ++ [0%nat]) rs.
Proof. apply fold_left_app_flat. Qed.

Definition nf (rs : list (list nat)) : list (list nat) := lex_sort (map orient1 (filter nonempty rs)).

Lemma normalize_giant rs : Forall customers_only rs ->
  normalize_solution (Giant (encode rs)) = Some (encode (nf rs)).
Proof.
  intros Hc. unfold normalize_solution. cbn [encode]. fold (encode rs).
  change (0%nat :: flat_map (fun r => r ++ [0%nat]) rs) with (encode rs).
  rewrite split_encode by exact Hc.
  rewrite orient_all_some by apply filter_nonempty_Forall.
  rewrite fold_encode. reflexivity.
Qed.

Lemma trim_left_customers r b : customers_only r -> trim_left 0 (r ++ repeat 0%nat b) =
  match r with [] => [] | _ => r ++ repeat 0%nat b end.
Proof.
  intros H. destruct H as [|x r Hx _].
  - induction b as [|b IH]; [reflexivity|exact IH].
  - cbn. destruct x; [easy|reflexivity].
Qed.

Lemma trim_left_zeros a l : trim_left 0 (repeat 0%nat a ++ l) = trim_left 0 l.
Proof. induction a as [|a IH]; [reflexivity|exact IH]. Qed.

Lemma rev_repeat {A} (x : A) n : rev (repeat x n) = repeat x n.
Proof. induction n as [|n IH]; [reflexivity|]. cbn. rewrite IH. now rewrite <- repeat_cons. Qed.

Lemma list_trim_wrap r a b : customers_only r ->
  list_trim (repeat 0%nat a ++ r ++ repeat 0%nat b) 0 = r.
Proof.
  intros H. unfold list_trim. rewrite trim_left_zeros, trim_left_customers by exact H.
  destruct r as [|x r]; [reflexivity|].
  rewrite rev_app_distr, rev_repeat, trim_left_zeros.
  assert (Hr : customers_only (rev (x :: r))).
  { apply Forall_rev. exact H. }
  replace (trim_left 0 (rev (x :: r))) with (rev (x :: r)); [apply rev_involutive|].
  pose proof (trim_left_customers _ 0 Hr) as E. cbn [repeat] in E. rewrite app_nil_r in E.
  destruct (rev (x :: r)); [reflexivity|]. now rewrite E.
Qed.

Lemma normalize_routes rs ws : rs <> [] -> Forall customers_only rs -> Forall (fun r => r <> []) rs ->
  Forall2 (fun r w => exists a b, w = repeat 0%nat a ++ r ++ repeat 0%nat b) rs ws ->
  normalize_solution (Routes ws) = Some (encode (nf rs)).
Proof.
  intros Hn Hc He HF. unfold normalize_solution.
  destruct ws as [|w ws0] eqn:E; [inversion HF; congruence|]. rewrite <- E in *. clear E w ws0.
  assert (Em : map (fun r => list_trim r 0) ws = rs).
  { clear Hn He. induction HF as [|r w rs ws (a & b & ->) HF IH]; [reflexivity|].
    inversion_clear Hc. cbn [map]. rewrite list_trim_wrap by assumption. f_equal. now apply IH. }
  rewrite Em, orient_all_some by exact He. rewrite fold_encode.
  unfold nf. now rewrite filter_nonempty_id by exact He.
Qed.

Lemma orient1_cases r : orient1 r = r \/ orient1 r = rev r.
Proof. destruct r as [|x r]; [now left|]. unfold orient1. destruct (Nat.ltb _ x); auto. Qed.

Lemma orient1_customers r : customers_only r -> customers_only (orient1 r).
Proof. intros H. destruct (orient1_cases r) as [->| ->]; [exact H|now apply Forall_rev]. Qed.

Lemma orient1_nonempty r : r <> [] -> orient1 r <> [].
Proof.
  intros H E. apply H. destruct (orient1_cases r) as [E'|E']; [congruence|].
  rewrite E in E'. rewrite <- (rev_involutive r), <- E'. reflexivity.
Qed.

Lemma hd_rev_last (r : list nat) x y : r <> [] -> hd x (rev r) = last r y.
Proof.
  intros H. destruct (exists_last H) as [q [z ->]]. rewrite rev_app_distr, last_last. reflexivity.
Qed.

Lemma last_rev_hd (r : list nat) x y : r <> [] -> last (rev r) x = hd y r.
Proof. intros H. destruct r as [|a r]; [easy|]. cbn [rev hd]. apply last_last. Qed.


Lemma orient1_oriented r : oriented (orient1 r).
Proof.
  unfold oriented. destruct r as [|x r]; [cbn; lia|]. unfold orient1.
  destruct (Nat.ltb_spec (last (x :: r) 0%nat) x).
  - rewrite (hd_rev_last _ 0%nat 0%nat), (last_rev_hd _ 0%nat 0%nat) by easy. cbn [hd]. lia.
  - cbn [hd]. lia.
Qed.

Lemma orient1_id r : oriented r -> orient1 r = r.
Proof.
  unfold oriented. destruct r as [|x r]; [reflexivity|]. cbn [hd]. unfold orient1.
  destruct (Nat.ltb_spec (last (x :: r) 0%nat) x); [lia|reflexivity].
Qed.

Lemma orient1_rev r : NoDup r -> orient1 (rev r) = orient1 r.
Proof.
  intros Hn. destruct r as [|x r]; [reflexivity|].
  destruct r as [|y r]; [reflexivity|].
  set (l := x :: y :: r) in *.
  assert (Hl : l <> []) by easy.
  assert (Hd : hd 0%nat l <> last l 0%nat).
  { unfold l. cbn [hd]. inversion_clear Hn. intros E. apply H. rewrite E.
    change (last (x :: y :: r) 0%nat) with (last (y :: r) 0%nat).
    destruct (exists_last (l := y :: r)) as [q [z Ez]]; [easy|]. rewrite Ez, last_last.
    apply in_or_app; right; now left. }
  assert (Ho : forall q, q <> [] -> orient1 q = if Nat.ltb (last q 0%nat) (hd 0%nat q) then rev q else q).
  { intros q Hq. destruct q; [easy|]. reflexivity. }
  rewrite (Ho l Hl). rewrite (Ho (rev l)).
  2:{ intros E. apply Hl. rewrite <- (rev_involutive l), E. reflexivity. }
  rewrite (hd_rev_last _ 0%nat 0%nat), (last_rev_hd _ 0%nat 0%nat) by easy. rewrite rev_involutive.
  destruct (Nat.ltb_spec (hd 0%nat l) (last l 0%nat)); destruct (Nat.ltb_spec (last l 0%nat) (hd 0%nat l)); try lia; reflexivity.
Qed.


Lemma Forall2_map_r {A B} (R : A -> B -> Prop) f l : (forall x, R x (f x)) -> Forall2 R l (map f l).
Proof. intros H. induction l; cbn; constructor; auto. Qed.

Lemma nf_same rs : same_routes (filter nonempty rs) (nf rs).
Proof.
  exists (map orient1 (filter nonempty rs)). split.
  - apply Forall2_map_r. intros r. unfold same_dir. apply orient1_cases.
  - apply lex_sort_perm.
Qed.

Lemma nf_customers rs : Forall customers_only rs -> Forall customers_only (nf rs).
Proof.
  intros H. eapply Forall_perm; [apply lex_sort_perm|]. apply Forall_map.
  rewrite Forall_forall in *. intros r Hr. apply filter_In in Hr. apply orient1_customers, H, Hr.
Qed.

Lemma nf_nonempty rs : Forall (fun r => r <> []) (nf rs).
Proof.
  eapply Forall_perm; [apply lex_sort_perm|]. apply Forall_map.
  eapply Forall_impl; [|apply filter_nonempty_Forall]. intros r Hr. now apply orient1_nonempty.
Qed.

Lemma nf_oriented rs : Forall oriented (nf rs).
Proof.
  eapply Forall_perm; [apply lex_sort_perm|]. apply Forall_map, Forall_forall.
  intros r _. apply orient1_oriented.
Qed.

Lemma nf_sorted rs : StronglySorted (fun a b => lex_leb a b = true) (nf rs).
Proof. apply lex_sort_sorted. Qed.

Lemma map_id_Forall {A} (f : A -> A) l : Forall (fun x => f x = x) l -> map f l = l.
Proof. induction 1 as [|x l E _ IH]; [reflexivity|]. cbn. now rewrite E, IH. Qed.

Lemma nf_idem rs : nf (nf rs) = nf rs.
Proof.
  unfold nf at 1. rewrite filter_nonempty_id by apply nf_nonempty.
  rewrite map_id_Forall.
  - apply lex_sort_id, lex_sort_sorted.
  - eapply Forall_impl; [|apply nf_oriented]. apply orient1_id.
Qed.

Lemma Forall2_concat_perm rs fs : Forall2 same_dir rs fs -> Permutation (concat rs) (concat fs).
Proof.
  induction 1 as [|r f rs fs [->| ->] _ IH]; cbn; [constructor|now apply Permutation_app_head|].
  apply Permutation_app; [apply Permutation_rev|exact IH].
Qed.

Lemma same_routes_concat rs rs' : same_routes rs rs' -> Permutation (concat rs) (concat rs').
Proof. intros (fs & HF & HP). rewrite (Forall2_concat_perm _ _ HF). now apply concat_perm. Qed.

Lemma nf_concat rs : Permutation (concat (nf rs)) (concat rs).
Proof. rewrite <- (concat_filter_nonempty rs). symmetry. apply same_routes_concat, nf_same. Qed.

(** Canonicity. *)
Lemma encode_inj rs1 rs2 : Forall customers_only rs1 -> Forall customers_only rs2 ->
  encode rs1 = encode rs2 -> rs1 = rs2.
Proof.
  intros H1 H2 E. rewrite !encode_cyclic in E. apply app_inv_tail in E. now apply cyclic_inj.
Qed.

Lemma same_dir_sym r r' : same_dir r r' -> same_dir r' r.
Proof. intros [->| ->]; [now left|right; now rewrite rev_involutive]. Qed.

Lemma same_dir_trans r r' r'' : same_dir r r' -> same_dir r' r'' -> same_dir r r''.
Proof.
  intros [->| ->] [->| ->]; [now left|now right|now right|left; now rewrite rev_involutive].
Qed.

Lemma Forall2_perm_l {A B} (R : A -> B -> Prop) l1 l1' : Permutation l1 l1' -> forall l2, Forall2 R l1 l2 ->
  exists l2', Permutation l2 l2' /\ Forall2 R l1' l2'.
Proof.
  induction 1 as [|x l1 l1' HP IH|x y l1|l1 l1' l1'' HP1 IH1 HP2 IH2]; intros l2 HF.
  - inversion HF. exists []. split; constructor.
  - inversion HF as [|? b ? l2' Hx HF']; subst. destruct (IH _ HF') as (q & Hq1 & Hq2).
    exists (b :: q). split; constructor; auto.
  - inversion HF as [|? b ? l2' Hx HF']; subst. inversion HF' as [|? c ? l2'' Hy HF'']; subst.
    exists (c :: b :: l2''). split; [apply perm_swap|]. repeat constructor; auto.
  - destruct (IH1 _ HF) as (q & Hq1 & Hq2). destruct (IH2 _ Hq2) as (q' & Hq1' & Hq2').
    exists q'. split; [now transitivity q|exact Hq2'].
Qed.

Lemma Forall2_flip {A B} (R : A -> B -> Prop) l1 l2 : Forall2 R l1 l2 -> Forall2 (fun b a => R a b) l2 l1.
Proof. induction 1; constructor; auto. Qed.

Lemma same_routes_sym rs rs' : same_routes rs rs' -> same_routes rs' rs.
Proof.
  intros (fs & HF & HP). apply Forall2_flip in HF.
  destruct (Forall2_perm_l _ _ _ HP _ HF) as (q & Hq1 & Hq2).
  exists q. split; [|now symmetry].
  clear -Hq2. induction Hq2; constructor; auto. now apply same_dir_sym.
Qed.

Lemma same_routes_trans r1 r2 r3 : same_routes r1 r2 -> same_routes r2 r3 -> same_routes r1 r3.
Proof.
  intros (f1 & HF1 & HP1) (f2 & HF2 & HP2). 
  destruct (Forall2_perm_l _ _ _ (Permutation_sym HP1) _ HF2) as (q & Hq1 & Hq2).
  exists q. split; [|now rewrite <- Hq1].
  clear -HF1 Hq2. revert q Hq2. induction HF1; intros q Hq2; inversion Hq2; subst; constructor; auto.
  eapply same_dir_trans; eassumption.
Qed.

Lemma nf_same_iff rs1 rs2 : Forall (fun r => r <> []) rs1 -> Forall (fun r => r <> []) rs2 ->
  Forall (@NoDup nat) rs1 ->
  (nf rs1 = nf rs2 <-> same_routes rs1 rs2).
Proof.
  intros Hn1 Hn2 Hnd. split.
  - intros E. pose proof (nf_same rs1) as S1. pose proof (nf_same rs2) as S2.
    rewrite filter_nonempty_id in S1, S2 by assumption.
    eapply same_routes_trans; [exact S1|]. rewrite E. now apply same_routes_sym.
  - intros (fs & HF & HP). unfold nf. rewrite !filter_nonempty_id by assumption.
    rewrite <- (lex_sort_unique (map orient1 fs) (map orient1 rs2)) by now apply Permutation_map.
    f_equal. clear HP. revert Hnd. clear Hn1 Hn2.
    induction HF as [|r f rs1 fs Hd HF IH]; intros Hnd; [reflexivity|]. inversion_clear Hnd.
    cbn [map]. f_equal; [|now apply IH]. destruct Hd as [->| ->]; [reflexivity|].
    symmetry. now apply orient1_rev.
Qed.

(** ** Costs and verdicts under same_routes *)
Lemma same_dir_cost D r r' : symmetric D -> same_dir r r' -> route_cost D r' = route_cost D r.
Proof. intros HS [->| ->]; [reflexivity|now apply route_cost_rev]. Qed.

Lemma same_dir_demand d r r' : same_dir r r' -> demand d r' = demand d r.
Proof. intros [->| ->]; [reflexivity|apply demand_rev]. Qed.

Lemma routes_cost_perm D rs rs' : Permutation rs rs' -> routes_cost D rs = routes_cost D rs'.
Proof. intros H. apply sumZ_perm, Permutation_map, H. Qed.

Lemma same_routes_cost D rs rs' : symmetric D -> same_routes rs rs' -> routes_cost D rs' = routes_cost D rs.
Proof.
  intros HS (fs & HF & HP). rewrite <- (routes_cost_perm _ _ _ HP). clear HP. unfold routes_cost.
  induction HF as [|r f rs fs Hd HF IH]; [reflexivity|]. cbn [map]. rewrite !sumZ_cons, IH.
  f_equal. now apply same_dir_cost.
Qed.

Lemma same_routes_cap d C eps rs rs' : same_routes rs rs' -> cap_ok d C eps rs -> cap_ok d C eps rs'.
Proof.
  intros (fs & HF & HP) H. unfold cap_ok in *. eapply Forall_perm; [exact HP|]. clear HP.
  induction HF as [|r f rs fs Hd HF IH]; [constructor|]. inversion_clear H. constructor; [|auto].
  rewrite (same_dir_demand d r f Hd). assumption.
Qed.

Lemma same_routes_len D L eps rs rs' : symmetric D -> same_routes rs rs' -> len_ok D L eps rs -> len_ok D L eps rs'.
Proof.
  intros HS (fs & HF & HP) H. unfold len_ok in *. eapply Forall_perm; [exact HP|]. clear HP.
  induction HF as [|r f rs fs Hd HF IH]; [constructor|]. inversion_clear H. constructor; [|auto].
  rewrite (same_dir_cost D r f HS Hd). assumption.
Qed.

Lemma routes_cost_nonempty D rs : D 0%nat 0%nat = 0 -> routes_cost D (filter nonempty rs) = routes_cost D rs.
Proof.
  intros H0. unfold routes_cost. induction rs as [|r rs IH]; [reflexivity|].
  destruct r as [|x r]; cbn [filter nonempty map]; rewrite ?sumZ_cons, IH; [|reflexivity].
  unfold route_cost. cbn. lia.
Qed.

Lemma nf_cost D rs : symmetric D -> D 0%nat 0%nat = 0 -> routes_cost D (nf rs) = routes_cost D rs.
Proof.
  intros HS H0. rewrite (same_routes_cost D (filter nonempty rs)); [|exact HS|apply nf_same].
  now apply routes_cost_nonempty.
Qed.

(** ** recalculate_objective *)
Lemma recalc_giant D rs : D 0%nat 0%nat = 0 ->
  recalculate_objective (Giant (encode rs)) D = Some (routes_cost D rs).
Proof.
  intros H0. unfold recalculate_objective.
  change (encode rs) with (0%nat :: flat_map (fun r => r ++ [0%nat]) rs) at 1.
  cbn [recalculate_objective]. f_equal.
  change (0%nat :: flat_map (fun r => r ++ [0%nat]) rs) with (encode rs).
  rewrite consecutive_sum_path, path_cost_encode, last_encode. lia.
Qed.


Lemma recalc_routes_spec D rs ws : Forall customers_only rs -> Forall (fun r => r <> []) rs ->
  Forall2 depot_wrapped rs ws -> forall f, recalc_routes D ws f = Some (f + routes_cost D rs).
Proof.
  intros Hc He HF. induction HF as [|r w rs ws Hw HF IH]; intros f.
  - cbn. f_equal. unfold routes_cost; cbn. lia.
  - inversion_clear Hc. inversion_clear He.
    assert (exists x w', w = x :: w' /\ consecutive_sum D w
              + (if negb (Nat.eqb x 0) then D 0%nat x else 0)
              + (if negb (Nat.eqb (last w 0%nat) 0) then D (last w 0%nat) 0%nat else 0) = route_cost D r) as (x & w' & -> & E).
    { destruct Hw as (a & b & Ha & Hb & ->). rewrite consecutive_sum_path.
      destruct r as [|x r]; [easy|].
      destruct (exists_last (l := x :: r)) as [q [z Ez]]; [easy|].
      assert (Hx : Nat.eqb x 0 = false) by (inversion H; destruct x; easy).
      assert (Hz : Nat.eqb z 0 = false).
      { unfold customers_only in H. rewrite Ez in H. apply Forall_app in H. destruct H as [_ H].
        inversion H. destruct z; easy. }
      unfold route_cost.
      assert (Eb : forall p, last (p ++ (x :: r) ++ b) 0%nat = match b with [] => z | _ => 0%nat end).
      { intros p. rewrite Ez. destruct Hb as [-> | ->].
        - rewrite app_nil_r, app_assoc, last_last. reflexivity.
        - rewrite !app_assoc, last_last. reflexivity. }
      rewrite Eb.
      assert (Er : forall p, path_cost D (p ++ (x :: r) ++ [0%nat]) = path_cost D (p ++ x :: r) + D z 0%nat).
      { intros p. rewrite Ez. rewrite <- !app_assoc. cbn [app]. rewrite !app_assoc.
        rewrite <- !app_assoc. cbn [app].
        replace (p ++ q ++ [z; 0%nat]) with ((p ++ q) ++ [z; 0%nat]) by now rewrite app_assoc.
        rewrite path_cost_snoc2. now rewrite app_assoc. }
      specialize (Er [0%nat]) as Er0. specialize (Er []) as Er1. cbn [app] in Er0, Er1.
      cbn [app]. 
      destruct Ha as [-> | ->], Hb as [-> | ->]; cbn [app]; rewrite ?app_nil_r;
        eexists _, _; (split; [reflexivity|]); rewrite ?Hx, ?Hz; cbn [Nat.eqb negb];
        rewrite ?Er0, ?Er1, ?path_cost_cons2; lia. }
    cbn [recalc_routes].
    assert (Ef : forall g, recalc_routes D ws g = Some (g + routes_cost D rs)) by (intros g; now apply IH).
    rewrite Ef. f_equal. unfold routes_cost. cbn [map]. rewrite sumZ_cons, <- E.
    destruct (negb (Nat.eqb x 0)), (negb (Nat.eqb (last (x :: w') 0%nat) 0)); lia.
Qed.

(** ** Validator verdicts of the normal form *)
Lemma validate_encode N D d C L eps rs : (0 < N)%nat -> d 0%nat = 0 -> Forall customers_only rs ->
  Forall (fun n => (n < N)%nat) (encode rs) ->
  exists bcov bcap blen,
    validate_solution_feasibility N (encode rs) D d C L eps = Some (bcov, bcap, blen) /\
    (bcov = true <-> covers N rs) /\
    (bcap = true <-> cap_ok d C eps (rs ++ [[]])) /\
    (blen = true <-> len_ok D L eps (rs ++ [[]])).
Proof.
  intros HN Hd Hc Hlt.
  destruct (validate_correct N D d C L eps (rs ++ [[]]) (encode rs) []) as (b1 & b2 & b3 & E & H1 & H2 & H3).
  - exact HN.
  - exact Hd.
  - now destruct rs.
  - apply Forall_app. split; [exact Hc|]. repeat constructor.
  - rewrite app_nil_r, encode_cyclic, cyclic_app. reflexivity.
  - exact Hlt.
  - exists b1, b2, b3. split; [exact E|]. split; [|split; assumption].
    rewrite H1. unfold covers. rewrite concat_app. cbn. rewrite app_nil_r. reflexivity.
Qed.

Lemma Forall_nonempty_iff (P : list nat -> Prop) rs : P [] ->
  (Forall P (filter nonempty rs) <-> Forall P rs).
Proof.
  intros H0. induction rs as [|r rs IH]; [easy|]. destruct r as [|x r]; cbn [filter nonempty].
  - rewrite IH. split; [now constructor|now inversion 1].
  - split; inversion_clear 1; constructor; tauto.
Qed.

Lemma validate_nf N D d C L eps rs : (0 < N)%nat -> d 0%nat = 0 -> symmetric D -> Forall customers_only rs ->
  Forall (fun n => (n < N)%nat) (encode rs) ->
  validate_solution_feasibility N (encode (nf rs)) D d C L eps =
  validate_solution_feasibility N (encode rs) D d C L eps.
Proof.
  intros HN Hd HS Hc Hlt.
  assert (Hin : forall l, Forall customers_only l -> (Forall (fun n => (n < N)%nat) (encode l) <-> Forall (fun n => (n < N)%nat) (concat l))).
  { intros l Hl. rewrite !Forall_forall. rewrite <- (customers_encode l Hl). split; intros H x Hx.
    - apply H. unfold customers in Hx. now apply filter_In in Hx.
    - destruct x as [|x]; [lia|]. apply H. unfold customers. apply filter_In. split; [exact Hx|reflexivity]. }
  pose proof (nf_customers rs Hc) as Hcn.
  assert (Hltn : Forall (fun n => (n < N)%nat) (encode (nf rs))).
  { apply Hin; [exact Hcn|]. eapply Forall_perm; [symmetry; apply nf_concat|]. now apply Hin. }
  destruct (validate_encode N D d C L eps rs HN Hd Hc Hlt) as (b1 & b2 & b3 & E & H1 & H2 & H3).
  destruct (validate_encode N D d C L eps (nf rs) HN Hd Hcn Hltn) as (c1 & c2 & c3 & E' & G1 & G2 & G3).
  rewrite E, E'. 
  assert (Hb : forall b c : bool, (b = true <-> c = true) -> b = c).
  { intros [] [] Hbc; try reflexivity; [symmetry|]; now apply Hbc. }
  pose proof (nf_same rs) as S1. pose proof (same_routes_sym _ _ S1) as S2.
  f_equal. f_equal; [f_equal|].
  - apply Hb. rewrite G1, H1. unfold covers. now rewrite nf_concat.
  - apply Hb. rewrite G2, H2. unfold cap_ok. rewrite !Forall_app.
    assert (Hx : Forall (fun r => within C eps (demand d r)) [[]] -> (Forall (fun r => within C eps (demand d r)) (nf rs) <-> Forall (fun r => within C eps (demand d r)) rs)); [|tauto].
    intros Hn. inversion_clear Hn. rewrite <- (Forall_nonempty_iff _ rs) by exact H.
    split; [now apply same_routes_cap|now apply same_routes_cap].
  - apply Hb. rewrite G3, H3. unfold len_ok. rewrite !Forall_app.
    assert (Hx : Forall (fun r => within L eps (route_cost D r)) [[]] -> (Forall (fun r => within L eps (route_cost D r)) (nf rs) <-> Forall (fun r => within L eps (route_cost D r)) rs)); [|tauto].
    intros Hn. inversion_clear Hn. rewrite <- (Forall_nonempty_iff _ rs) by exact H.
    split; [now apply same_routes_len|now apply same_routes_len].
Qed.

(** ** D2D_c *)
Lemma D2D_c_cost u idt D st Dc : D2D_c u idt D st = Some Dc -> D 0%nat 0%nat = 0 ->
  exists tst half,
    (forall r, customers_only r -> NoDup r -> r <> [] ->
       route_cost Dc r = route_cost D r + (Z.of_nat (length r) - 1) * tst + 2 * half) /\
    (match st with Some s => tst = (if idt then trunc u s else s) /\
        half = (if negb (tst =? s) || negb (tst / 2 =? s / 2) then tst / 2 else trunc u (tst / 2))
     | None => False end).
Proof.
  unfold D2D_c. destruct st as [s|]; [|discriminate]. unfold truthy.
  destruct (Z.eqb_spec s 0); [discriminate|]. intros E H0.
  set (tst := if idt then trunc u s else s) in *.
  set (half := if negb (tst =? s) || negb (tst / 2 =? s / 2) then tst / 2 else trunc u (tst / 2)) in *.
  exists tst, half. split; [|auto]. injection E as <-.
  match goal with |- forall r, _ -> _ -> _ -> route_cost ?f r = _ => set (Dc := f) end.
  intros r Hc Hn Hne.
  assert (E0 : forall x, x <> 0%nat -> Dc 0%nat x = D 0%nat x + half).
  { intros x Hx. unfold Dc. destruct (Nat.eqb_spec 0 x); [congruence|]. cbn [Nat.eqb negb andb].
    destruct (Nat.eqb_spec x 0); [easy|]. reflexivity. }
  assert (E1 : forall x, x <> 0%nat -> Dc x 0%nat = D x 0%nat + half).
  { intros x Hx. unfold Dc. destruct (Nat.eqb_spec x 0); [congruence|]. cbn [Nat.eqb negb andb]. lia. }
  assert (E2 : forall x y, x <> 0%nat -> y <> 0%nat -> x <> y -> Dc x y = D x y + tst).
  { intros x y Hx Hy Hxy. unfold Dc. destruct (Nat.eqb_spec x y); [congruence|].
    destruct (Nat.eqb_spec x 0); [congruence|]. destruct (Nat.eqb_spec y 0); [congruence|]. cbn [negb andb]. lia. }
  assert (EP : forall x r, customers_only (x :: r) -> NoDup (x :: r) ->
     path_cost Dc (x :: r ++ [0%nat]) = path_cost D (x :: r ++ [0%nat]) + Z.of_nat (length r) * tst + half).
  { clear r Hc Hn Hne. intros x r. revert x. induction r as [|y r IH]; intros x Hc Hn.
    - cbn [app length]. rewrite !path_cost_cons2, !path_cost_one. inversion_clear Hc. rewrite E1 by assumption. lia.
    - inversion Hc as [|? ? Hcx Hcr]; inversion Hn as [|? ? Hnx Hnr]; subst. cbn [app].
      rewrite !(path_cost_cons2 _ x y).
      rewrite IH by assumption. cbn [length]. rewrite E2; [lia|assumption|now inversion Hcr|].
      intros ->. apply Hnx. now left. }
  destruct r as [|x r]; [easy|]. unfold route_cost. cbn [app]. rewrite !(path_cost_cons2 _ 0%nat x).
  rewrite EP by assumption. inversion_clear Hc. rewrite E0 by assumption. cbn [length]. lia.
Qed.

Lemma D2D_c_empty u idt D st Dc : D2D_c u idt D st = Some Dc -> Dc 0%nat 0%nat = 0.
Proof.
  unfold D2D_c. destruct (truthy st); [|discriminate]. intros E. injection E as <-. reflexivity.
Qed.

Lemma trunc_id u s : 0 < u -> trunc u s = s <-> (2 * u | s).
Proof.
  intros Hu. unfold trunc. split.
  - intros E. exists (Z.quot s (2 * u)). lia.
  - intros [k ->]. rewrite Z.quot_mul by lia. reflexivity.
Qed.

Lemma D2D_c_exact_iff u idt D st Dc : 0 < u -> Z.even st = true -> D 0%nat 0%nat = 0 ->
  D2D_c u idt D (Some st) = Some Dc ->
  ((forall r, customers_only r -> NoDup r ->
      route_cost Dc r = route_cost D r + Z.of_nat (length r) * st) <-> (4 * u | st)).
Proof.
  intros Hu Hev H0 E. destruct (D2D_c_cost u idt D (Some st) Dc E H0) as (tst & half & HC & Ht & Hh).
  apply Z.even_spec in Hev. destruct Hev as [k Hk].
  assert (Hk2 : st / 2 = k) by (subst st; rewrite Z.mul_comm, Z.div_mul by lia; reflexivity).
  split.
  - intros H. specialize (H [1%nat]). specialize (HC [1%nat]).
    assert (Hc1 : customers_only [1%nat]) by (constructor; [easy|constructor]).
    assert (Hn1 : NoDup [1%nat]) by (constructor; [easy|constructor]).
    specialize (H Hc1 Hn1). specialize (HC Hc1 Hn1 ltac:(easy)). rewrite H in HC. cbn [length] in HC.
    assert (E2 : 2 * half = st) by lia. clear H HC.
    destruct (Z.eqb_spec tst st) as [Et|Et].
    + rewrite Et, Z.eqb_refl in Hh. cbn in Hh. rewrite Hk2 in Hh.
      assert (Ehk : half = k) by lia. rewrite Ehk in Hh. symmetry in Hh. apply trunc_id in Hh; [|exact Hu].
      destruct Hh as [q ->]. exists q. lia.
    + cbn in Hh. exfalso. destruct idt; [|congruence].
      assert (Ht2 : tst / 2 * 2 = tst).
      { rewrite Ht. unfold trunc.
        replace (st ÷ (2 * u) * (2 * u)) with (u * (st ÷ (2 * u)) * 2) by lia.
        rewrite Z.div_mul by lia. lia. }
      lia.
  - intros [q Hq]. 
    assert (Etst : tst = st).
    { destruct idt; [|exact Ht]. rewrite Ht. apply trunc_id; [exact Hu|]. exists (2 * q). lia. }
    rewrite Etst, !Z.eqb_refl in Hh. cbn in Hh. rewrite Hk2 in Hh.
    assert (Ehk : trunc u k = k). { apply trunc_id; [exact Hu|]. exists q. lia. }
    rewrite Ehk in Hh.
    intros r Hc Hn. destruct r as [|x r].
    + unfold route_cost. cbn. rewrite (D2D_c_empty _ _ _ _ _ E). lia.
    + rewrite HC by easy. rewrite Etst, Hh. lia.
Qed.
