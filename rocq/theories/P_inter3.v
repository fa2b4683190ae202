(** * Proofs about do_insert_move and do_redistribute_move *)
From Verif Require Import Spec Spec_ls Spec_inter PyBase M_util M_routedata M_intra M_inter
     P_base P_cvrp P_rd P_scan P_intra P_intra2 P_inter P_inter2.
From Coq Require Import ZifyBool ZifyNat.

Lemma within_unset lim eps x : truthy lim = None -> within lim eps x.
Proof. unfold truthy, within. destruct lim as [c|]; [|easy]. destruct (Z.eqb_spec c 0); [easy|discriminate]. Qed.
Lemma truthy_set lim c : truthy lim = Some c -> limit_set lim.
Proof. unfold truthy, limit_set. destruct lim as [x|]; [|discriminate]. destruct (Z.eqb_spec x 0); [discriminate|easy]. Qed.
Lemma set_truthy lim : limit_set lim -> exists c, lim = Some c /\ truthy lim = Some c.
Proof.
  unfold truthy, limit_set. destruct lim as [x|]; [|easy]. intros H. exists x.
  destruct (Z.eqb_spec x 0); [contradiction|easy].
Qed.

(** Invariants of loops with break *)
Lemma for_break_prefix {A S} (f : A -> S -> S * bool) (Inv : list A -> S -> Prop) (Fin : S -> Prop) l s0 :
  Inv [] s0 ->
  (forall pre x s, In x l -> Inv pre s -> let '(s', b) := f x s in if b then Fin s' else Inv (pre ++ [x]) s') ->
  let '(s', b) := for_break l f s0 in if b then Fin s' else Inv l s'.
Proof.
  intros H0 Hstep.
  assert (G : forall post pre s, (forall x, In x post -> In x l) -> Inv pre s ->
      let '(s', b) := for_break post f s in if b then Fin s' else Inv (pre ++ post) s').
  { induction post as [|x post IH]; intros pre s Hin HI; cbn [for_break].
    - now rewrite app_nil_r.
    - pose proof (Hstep pre x s (Hin x (or_introl eq_refl)) HI) as HS.
      destruct (f x s) as [s' []]; [exact HS|].
      replace (pre ++ x :: post) with ((pre ++ [x]) ++ post) by (now rewrite <- app_assoc).
      apply IH; [intros y Hy; apply Hin; now right|exact HS]. }
  exact (G l [] s0 (fun x H => H) H0).
Qed.

(** ** The insertion position *)
Section Insert.
Variables (eps : Z) (D : matrix) (d : demands) (C L : limit) (first : bool).

Definition ins_cost (r : list nat) (n i : nat) : Z :=
  D (at_ (wrap r) (i - 1)) n + D n (at_ (wrap r) i) - D (at_ (wrap r) (i - 1)) (at_ (wrap r) i).

Lemma ins_cost_spec m1 m2 n :
  ins_cost (m1 ++ m2) n (S (length m1)) = route_cost D (m1 ++ [n] ++ m2) - route_cost D (m1 ++ m2).
Proof.
  unfold ins_cost. rewrite (at_wrap_pre m1 m2) by lia. rewrite (at_wrap_suf m1 m2) by lia.
  rewrite rc_mid, rc_split. lia.
Qed.

Lemma find_insert_pos_spec last_one r n :
  match find_insert_pos eps D L first last_one (wrap r) (route_cost D r) n with
  | Some (pos, dl) => exists m1 m2, r = m1 ++ m2 /\ pos = S (length m1) /\
        dl = route_cost D (m1 ++ [n] ++ m2) - route_cost D r /\
        within L eps (route_cost D (m1 ++ [n] ++ m2)) /\
        (first = false -> forall a b, r = a ++ b -> within L eps (route_cost D (a ++ [n] ++ b)) ->
           route_cost D (m1 ++ [n] ++ m2) <= route_cost D (a ++ [n] ++ b))
  | None => forall a b, r = a ++ b -> ~ within L eps (route_cost D (a ++ [n] ++ b))
  end.
Proof.
  unfold find_insert_pos.
  destruct (negb first || match truthy L with Some _ => true | None => false end) eqn:Emode.
  - match goal with |- context [for_break ?l ?f ?s0] =>
      pose proof (for_break_prefix f
        (fun pre s => match s with
           | Some (i, x) => (1 <= i < length (wrap r))%nat /\ x = ins_cost r n i /\
                 exceeds L eps (route_cost D r + x) = false /\
                 (forall k, In k pre -> exceeds L eps (route_cost D r + ins_cost r n k) = false -> x <= ins_cost r n k)
           | None => forall k, In k pre -> exceeds L eps (route_cost D r + ins_cost r n k) = true
           end)
        (fun s => match s with
           | Some (i, x) => (1 <= i < length (wrap r))%nat /\ x = ins_cost r n i /\
                 exceeds L eps (route_cost D r + x) = false /\ first = true
           | None => False
           end) l s0) as HP
    end.
    cbv zeta in HP. lapply HP; [clear HP; intros HP|intros k []].
    lapply HP; [clear HP; intros HP|].
    2: { intros pre i s Hi HI. apply in_range in Hi. fold (ins_cost r n i).
      destruct (exceeds L eps (route_cost D r + ins_cost r n i)) eqn:Ex.
      - destruct s as [[i' x]|].
        + destruct HI as (A1 & A2 & A3 & A4). repeat split; try assumption; try lia.
          intros k Hk Hx. apply in_app_or in Hk. destruct Hk as [Hk|[<-|[]]]; [now apply A4|congruence].
        + intros k Hk. apply in_app_or in Hk. destruct Hk as [Hk|[<-|[]]]; [now apply HI|exact Ex].
      - assert (A : match
          match s with
          | Some (_, bid) => if ins_cost r n i <? bid then Some (i, ins_cost r n i) else s
          | None => Some (i, ins_cost r n i)
          end with
          | Some (i', x) => (1 <= i' < length (wrap r))%nat /\ x = ins_cost r n i' /\
                 exceeds L eps (route_cost D r + x) = false /\
                 (forall k, In k (pre ++ [i]) -> exceeds L eps (route_cost D r + ins_cost r n k) = false -> x <= ins_cost r n k)
          | None => False
          end).
        { destruct s as [[i' x]|].
          - destruct HI as (A1 & A2 & A3 & A4).
            destruct (Z.ltb_spec (ins_cost r n i) x).
            + repeat split; try assumption; try lia. intros k Hk Hx. apply in_app_or in Hk.
              destruct Hk as [Hk|[<-|[]]]; [specialize (A4 k Hk Hx); lia|lia].
            + repeat split; try assumption; try lia. intros k Hk Hx. apply in_app_or in Hk.
              destruct Hk as [Hk|[<-|[]]]; [now apply A4|lia].
          - repeat split; try assumption; try lia. intros k Hk Hx. apply in_app_or in Hk.
            destruct Hk as [Hk|[<-|[]]]; [specialize (HI k Hk); congruence|lia]. }
        match goal with |- if _ then match ?m with _ => _ end else _ => destruct m as [[i' x]|] end; [|easy].
        destruct (first && last_one) eqn:E; [|exact A]. destruct first; [|easy]. tauto. }
    match goal with |- context [for_break ?l ?f ?s0] => destruct (for_break l f s0) as [[[pos dl]|] brk] end; cbn [fst].
    + assert (HQ : (1 <= pos < length (wrap r))%nat /\ dl = ins_cost r n pos /\
          exceeds L eps (route_cost D r + dl) = false /\
          (first = false -> forall k, (1 <= k < length (wrap r))%nat ->
             exceeds L eps (route_cost D r + ins_cost r n k) = false -> dl <= ins_cost r n k)).
      { destruct brk.
        - destruct HP as (A1 & A2 & A3 & A4). repeat split; try assumption; try lia; congruence.
        - destruct HP as (A1 & A2 & A3 & A4). repeat split; try assumption; try lia. intros _ k Hk.
          apply A4. apply in_range. lia. }
      clear HP. destruct HQ as (A1 & A2 & A3 & A4).
      apply pos_gap in A1. destruct A1 as (m1 & m2 & -> & ->). rewrite ins_cost_spec in A2.
      exists m1, m2. split; [reflexivity|]. split; [reflexivity|]. split; [exact A2|]. split.
      * apply exceeds_within in A3. replace (route_cost D (m1 ++ m2) + dl) with (route_cost D (m1 ++ [n] ++ m2)) in A3 by lia. exact A3.
      * intros Hf a b Eab Hw. assert (Hk : (1 <= S (length a) < length (wrap (m1 ++ m2)))%nat) by (apply pos_gap; now exists a, b).
        specialize (A4 Hf _ Hk). rewrite Eab in A4 at 1 2. rewrite Eab in A4 at 1. rewrite ins_cost_spec in A4.
        assert (X : exceeds L eps (route_cost D (a ++ b) + (route_cost D (a ++ [n] ++ b) - route_cost D (a ++ b))) = false).
        { apply exceeds_within. replace (route_cost D (a ++ b) + (route_cost D (a ++ [n] ++ b) - route_cost D (a ++ b))) with (route_cost D (a ++ [n] ++ b)) by lia. exact Hw. }
        specialize (A4 X). rewrite Eab in A2. lia.
    + destruct brk; [easy|]. intros a b Eab Hw.
      assert (Hk : (1 <= S (length a) < length (wrap r))%nat) by (apply pos_gap; now exists a, b).
      specialize (HP (S (length a))). rewrite in_range in HP. specialize (HP Hk).
      apply exceeds_true in HP. apply HP. subst r. rewrite ins_cost_spec.
      replace (route_cost D (a ++ b) + (route_cost D (a ++ [n] ++ b) - route_cost D (a ++ b))) with (route_cost D (a ++ [n] ++ b)) by lia. exact Hw.
  - apply orb_false_iff in Emode. destruct Emode as [Ef EL].
    assert (HL : truthy L = None) by (destruct (truthy L); congruence).
    exists r, []. rewrite app_nil_r, wrap_length. split; [reflexivity|]. split; [lia|]. split; [|split].
    + replace (length r + 2 - 2)%nat with (length r) by lia.
      assert (Ea : at_ (wrap r) (length r) = last r 0%nat).
      { rewrite <- (app_nil_r r) at 1. now apply at_wrap_pre. }
      rewrite Ea. rewrite rc_mid. pose proof (rc_split D r []) as X. rewrite app_nil_r in X. cbn [hd] in *. lia.
    + now apply within_unset.
    + intros Hf. rewrite Hf in Ef. discriminate.
Qed.

(** One step and the whole loop *)
Inductive inserted : list nat -> list nat -> list nat -> Prop :=
| ins_done : forall r, inserted r [] r
| ins_step : forall m1 m2 n ns r', inserted (m1 ++ [n] ++ m2) ns r' -> inserted (m1 ++ m2) (n :: ns) r'.

Lemma insert_loop_spec bd ns : forall r dem total r' l' dem' total',
  insert_loop eps D d C L first bd ns (wrap r) (route_cost D r) dem total = Some (r', l', dem', total') ->
  exists q, r' = wrap q /\ inserted r ns q /\ l' = route_cost D q /\
    (limit_set C -> dem' = dem + demand d ns) /\
    total' = total + route_cost D q - route_cost D r /\
    (ns <> [] -> within L eps (route_cost D q)) /\
    (ns <> [] -> match bd with Some b => total' + eps <= b | None => True end).
Proof.
  induction ns as [|n ns IH]; intros r dem total r' l' dem' total' H; cbn [insert_loop] in H.
  - injection H as <- <- <- <-. exists r. repeat split; try constructor; try easy; try lia.
    intros _. rewrite demand_nil. lia.
  - pose proof (find_insert_pos_spec (match ns with [] => true | _ => false end) r n) as HF.
    destruct (find_insert_pos eps D L first _ (wrap r) (route_cost D r) n) as [[pos dl]|]; [|discriminate].
    destruct HF as (m1 & m2 & Er & -> & Edl & HW & _). subst r.
    rewrite to_wrap in H by reflexivity. rewrite from_wrap in H by lia.
    destruct (match bd with Some b => b <? total + dl + eps | None => false end) eqn:Eb; [discriminate|].
    replace ((0%nat :: m1) ++ [n] ++ m2 ++ [0%nat]) with (wrap (m1 ++ [n] ++ m2)) in H
      by (unfold wrap; cbn [app]; now rewrite <- app_assoc).
    replace (route_cost D (m1 ++ m2) + dl) with (route_cost D (m1 ++ [n] ++ m2)) in H by lia.
    apply IH in H. destruct H as (q & A1 & A2 & A3 & A4 & A5 & A6 & A7). exists q.
    split; [exact A1|]. split; [now constructor|]. split; [exact A3|]. split; [|split; [lia|split]].
    + intros HC. rewrite A4 by exact HC. destruct (set_truthy C HC) as (c & _ & ->). rewrite demand_cons. lia.
    + intros _. destruct ns as [|n' ns]; [|now apply A6]. inversion A2. subst. exact HW.
    + intros _. destruct ns as [|n' ns]; [|now apply A7]. inversion A2. subst.
      destruct bd as [b|]; [|exact I]. lia.
Qed.

Lemma interleaved_nil_r {A} (r : list A) : interleaved r [] r.
Proof. induction r; now constructor. Qed.
Lemma interleaved_perm {A} (a b l : list A) : interleaved a b l -> Permutation l (a ++ b).
Proof.
  induction 1; cbn [app]; [constructor|now constructor|].
  etransitivity; [apply perm_skip; exact IHinterleaved|]. apply Permutation_middle.
Qed.

(** Removing from an interleaving one element of the left part moves it to the right part. *)
Lemma interleaved_move {A} (n : A) : forall m1 m2 b l, interleaved (m1 ++ [n] ++ m2) b l ->
  exists b1 b2, b = b1 ++ b2 /\ interleaved (m1 ++ m2) (b1 ++ [n] ++ b2) l.
Proof.
  intros m1 m2 b l H. remember (m1 ++ [n] ++ m2) as a eqn:Ea. revert m1 m2 Ea.
  induction H as [|x a b l H IH|x a b l H IH]; intros m1 m2 Ea.
  - destruct m1; discriminate.
  - destruct m1 as [|y m1].
    + injection Ea as -> ->. exists [], b. split; [reflexivity|]. cbn [app]. now constructor.
    + injection Ea as -> ->. destruct (IH m1 m2 eq_refl) as (b1 & b2 & -> & HI).
      exists b1, b2. split; [reflexivity|]. now constructor.
  - destruct (IH m1 m2 Ea) as (b1 & b2 & -> & HI). exists (x :: b1), b2. split; [reflexivity|]. now constructor.
Qed.

Lemma inserted_interleaved ns : forall r q, inserted r ns q ->
  exists ns', Permutation ns ns' /\ interleaved r ns' q.
Proof.
  induction ns as [|n ns IH]; intros r q H; inversion H; subst.
  - exists []. split; [constructor|apply interleaved_nil_r].
  - match goal with HI : inserted _ ns q |- _ => destruct (IH _ _ HI) as (ns' & Hp & Hi) end.
    apply interleaved_move in Hi. destruct Hi as (b1 & b2 & -> & Hi).
    exists (b1 ++ [n] ++ b2). split; [|exact Hi].
    etransitivity; [apply perm_skip; exact Hp|]. apply Permutation_middle.
Qed.

Lemma inserted_perm ns r q : inserted r ns q -> Permutation q (r ++ ns).
Proof.
  intros H. destruct (inserted_interleaved ns r q H) as (ns' & Hp & Hi).
  rewrite Hp. now apply interleaved_perm.
Qed.

Lemma inserted_longer (HT : triangle D) ns : forall r q, inserted r ns q -> route_cost D r <= route_cost D q.
Proof.
  induction ns as [|n ns IH]; intros r q H; inversion H; subst; [lia|].
  match goal with HI : inserted _ ns q |- _ => specialize (IH _ _ HI) end.
  pose proof (remove_shorter D m1 n m2 HT). lia.
Qed.

Lemma do_insert_list_spec bd ns nd r rd : exact_rd D d C r rd -> (limit_set C -> nd = demand d ns) ->
  match do_insert_list eps ns nd rd D d C L first bd with
  | Some (rds, delta) => exists q rd', rds = [empty_rd; rd'] /\ exact_rd D d C q rd' /\ inserted r ns q /\
      delta = route_cost D q - route_cost D r /\
      within C eps (demand d q) /\ (ns <> [] -> within L eps (route_cost D q)) /\
      (ns <> [] -> match bd with Some b => delta + eps <= b | None => True end)
  | None => True
  end.
Proof.
  intros (R & Cst & Dm) Hnd. unfold do_insert_list.
  destruct (exceeds C eps (odem rd + nd)) eqn:EC; [exact I|]. rewrite R, Cst.
  destruct (insert_loop _ _ _ _ _ _ _ _ _ _ _ _) as [[[[r' l'] dem'] total']|] eqn:E; [|exact I].
  apply insert_loop_spec in E. destruct E as (q & -> & HI & -> & Hd & Ht & HL & Hb).
  assert (Eq : limit_set C -> demand d q = odem rd + demand d ns).
  { intros HC. rewrite (demand_perm d _ _ (inserted_perm ns r q HI)), demand_app.
    unfold odem. rewrite (Dm HC). reflexivity. }
  exists q. eexists. split; [reflexivity|]. split; [|split; [exact HI|split; [lia|split; [|split; [exact HL|]]]]].
  - split; [reflexivity|]. split; [reflexivity|]. intros HC. cbn [rd_demand].
    destruct (set_truthy C HC) as (c & _ & ->). rewrite Hd by exact HC. now rewrite Eq by exact HC.
  - destruct (truthy C) eqn:TC; [|now apply within_unset]. apply truthy_set in TC.
    apply exceeds_within in EC. rewrite (Eq TC), <- (Hnd TC). exact EC.
  - intros Hne. specialize (Hb Hne). replace (total' ) with (0 + route_cost D q - route_cost D r) by lia.
    destruct bd; [|exact I]. lia.
Qed.

(** One customer: complete *)
Lemma do_insert_customer_spec r rd n : exact_rd D d C r rd ->
  match do_insert_customer eps n rd D d C L first None with
  | Some (rds, delta) => exists m1 m2 rd', r = m1 ++ m2 /\ rds = [empty_rd; rd'] /\
      exact_rd D d C (m1 ++ [n] ++ m2) rd' /\
      delta = route_cost D (m1 ++ [n] ++ m2) - route_cost D r /\
      feasible D d C L eps eps (m1 ++ [n] ++ m2) /\
      (first = false -> forall a b, r = a ++ b -> within L eps (route_cost D (a ++ [n] ++ b)) ->
           route_cost D (m1 ++ [n] ++ m2) <= route_cost D (a ++ [n] ++ b))
  | None => forall a b, r = a ++ b -> ~ feasible D d C L eps eps (a ++ [n] ++ b)
  end.
Proof.
  intros HX. pose proof (do_insert_list_spec None [n] (d n) r rd HX) as HS.
  pose proof HX as (R & Cst & Dm). unfold do_insert_customer.
  lapply HS; [clear HS; intros HS|intros _; rewrite demand_cons, demand_nil; lia].
  pose proof (find_insert_pos_spec true r n) as HF.
  unfold do_insert_list in *. 
  destruct (exceeds C eps (odem rd + d n)) eqn:EC.
  - intros a b -> [HC _]. apply exceeds_true in EC. apply EC.
    destruct (truthy C) eqn:TC; [|now apply within_unset]. apply truthy_set in TC.
    rewrite (exact_dem D d C (a ++ b) rd HX TC). rewrite demand_mid in HC. rewrite demand_app.
    eapply within_mono; [| |exact HC]; lia.
  - rewrite R, Cst in *. cbn [insert_loop] in *.
    destruct (find_insert_pos eps D L first true (wrap r) (route_cost D r) n) as [[pos dl]|].
    + destruct HF as (m1 & m2 & -> & -> & -> & HW & HB).
      rewrite to_wrap in * by reflexivity. rewrite from_wrap in * by lia.
      cbn [fst snd] in *. destruct HS as (q & rd' & E1 & HE & HI & Hdl & HWC & HWL & _).
      injection E1 as E1. subst rd'.
      assert (Eq : q = m1 ++ [n] ++ m2).
      { destruct HE as (HE & _). cbn [rd_route] in HE.
        apply (wrap_inj q (m1 ++ [n] ++ m2)). rewrite <- HE. unfold wrap. cbn [app]. now rewrite <- app_assoc. }
      subst q. exists m1, m2. eexists. split; [reflexivity|]. split; [reflexivity|].
      split; [exact HE|]. split; [lia|]. split; [split; assumption|exact HB].
    + intros a b E [_ HL]. exact (HF a b E HL).
Qed.

(** ** Redistribute *)
Definition one_inserted (n : nat) (rs rs' : list (list nat)) : Prop :=
  exists pre post m1 m2, rs = pre ++ (m1 ++ m2) :: post /\ rs' = pre ++ (m1 ++ [n] ++ m2) :: post /\
    feasible D d C L eps eps (m1 ++ [n] ++ m2).

Variable bd : option Z.

Lemma redistribute_one_late n (HT : triangle D) :
  forall rds rs pre total rds' total',
  Forall2 (exact_rd D d C) rs rds -> lt_inf (total + eps) bd = false ->
  redistribute_one eps D d C L first bd n pre rds total <> (rds', total', true).
Proof.
  induction rds as [|rd2 rds IH]; intros rs pre total rds' total' HF Hlt H;
    cbn [redistribute_one] in H; [discriminate|].
  inversion HF as [|r2 rd2' rs2 rds2 Hx2 HF2]; subst.
  pose proof (do_insert_customer_spec r2 rd2 n Hx2) as HI.
  destruct (do_insert_customer eps n rd2 D d C L first None) as [[rds2 delta]|].
  - destruct HI as (m1 & m2 & rd' & -> & -> & HE & Hdl & _).
    assert (Hge : 0 <= delta) by (pose proof (remove_shorter D m1 n m2 HT); lia).
    assert (Hlt' : lt_inf (total + delta + eps) bd = false) by (unfold lt_inf in *; destruct bd; [lia|discriminate]).
    rewrite Hlt' in H. apply (IH rs2 _ _ rds' total' HF2) in H; [exact H|exact Hlt'].
  - apply (IH rs2 _ _ rds' total' HF2 Hlt) in H. exact H.
Qed.

Lemma redistribute_one_spec n : bd = None \/ triangle D ->
  forall rds rs pre prs total rds' total',
  Forall2 (exact_rd D d C) rs rds -> Forall2 (exact_rd D d C) prs pre ->
  redistribute_one eps D d C L first bd n pre rds total = (rds', total', true) ->
  exists rs', Forall2 (exact_rd D d C) rs' rds' /\ one_inserted n (prs ++ rs) rs' /\    total' = total + routes_cost D rs' - routes_cost D (prs ++ rs) /\ lt_inf (total' + eps) bd = true.
Proof.
  intros Hmode. induction rds as [|rd2 rds IH]; intros rs pre prs total rds' total' HF HP H;
    cbn [redistribute_one] in H; [discriminate|].
  inversion HF as [|r2 rd2' rs2 rds2 Hx2 HF2]; subst.
  pose proof (do_insert_customer_spec r2 rd2 n Hx2) as HI.
  destruct (do_insert_customer eps n rd2 D d C L first None) as [[rds2 delta]|].
  - destruct HI as (m1 & m2 & rd' & -> & -> & HE & Hdl & Hfe & _).
    destruct (lt_inf (total + delta + eps) bd) eqn:Elt.
    + injection H as <- <-. exists (prs ++ (m1 ++ [n] ++ m2) :: rs2). split; [|split; [|split; [|exact Elt]]].
      * apply Forall2_app; [exact HP|now constructor].
      * exists prs, rs2, m1, m2. split; [reflexivity|]. split; [reflexivity|exact Hfe].
      * subst delta. unfold routes_cost. rewrite !map_app, !sumZ_app. cbn [map sumZ fold_right].
        fold (sumZ (map (route_cost D) rs2)). lia.
    + exfalso. destruct Hmode as [->|HT]; [discriminate|].
      exact (redistribute_one_late n HT rds rs2 _ _ _ _ HF2 Elt H).
  - apply (IH rs2 (pre ++ [rd2]) (prs ++ [r2])) in H; [|exact HF2|apply Forall2_app; [exact HP|constructor; [exact Hx2|constructor]]].
    rewrite <- app_assoc in H. exact H.
Qed.

(** The customers of one ordering are inserted one after the other. *)
Inductive all_inserted : list nat -> list (list nat) -> list (list nat) -> Prop :=
| ai_done : forall rs, all_inserted [] rs rs
| ai_step : forall n ns rs rs1 rs', one_inserted n rs rs1 -> all_inserted ns rs1 rs' -> all_inserted (n :: ns) rs rs'.

Lemma redistribute_all_spec : bd = None \/ triangle D ->
  forall ns rs rds total rds' total',
  Forall2 (exact_rd D d C) rs rds ->
  redistribute_all eps D d C L first bd ns rds total = Some (rds', total') ->
  exists rs', Forall2 (exact_rd D d C) rs' rds' /\ all_inserted ns rs rs' /\    total' = total + routes_cost D rs' - routes_cost D rs.
Proof.
  intros Hmode. induction ns as [|n ns IH]; intros rs rds total rds' total' HF H; cbn [redistribute_all] in H.
  - injection H as <- <-. exists rs. split; [exact HF|]. split; [constructor|lia].
  - destruct (redistribute_one eps D d C L first bd n [] rds total) as [[rds1 total1] []] eqn:E; [|discriminate].
    apply (redistribute_one_spec n Hmode rds rs [] []) in E; [|exact HF|constructor].
    destruct E as (rs1 & HF1 & HI & Ht & _). cbn [app] in HI, Ht.
    apply (IH rs1) in H; [|exact HF1]. destruct H as (rs' & HF' & HA & Ht'). exists rs'.
    split; [exact HF'|]. split; [econstructor; eassumption|lia].
Qed.

Lemma all_inserted_perm ns rs rs' : all_inserted ns rs rs' -> Permutation (concat rs') (ns ++ concat rs).
Proof.
  induction 1 as [|n ns rs rs1 rs' (pre & post & m1 & m2 & -> & -> & _) HA IH]; [reflexivity|].
  rewrite IH. rewrite !concat_app. cbn [concat]. perm.
Qed.
Lemma all_inserted_feasible ns rs rs' : all_inserted ns rs rs' ->
  Forall (feasible D d C L eps eps) rs -> Forall (feasible D d C L eps eps) rs'.
Proof.
  induction 1 as [|n ns rs rs1 rs' (pre & post & m1 & m2 & -> & -> & Hf) HA IH]; [easy|].
  intros HF. apply IH. apply Forall_app in HF. destruct HF as [HF1 HF2]. inversion HF2; subst.
  apply Forall_app. split; [exact HF1|]. now constructor.
Qed.
Lemma all_inserted_length ns rs rs' : all_inserted ns rs rs' -> length rs' = length rs.
Proof.
  induction 1 as [|n ns rs rs1 rs' (pre & post & m1 & m2 & -> & -> & _) HA IH]; [reflexivity|].
  rewrite IH, !app_length. reflexivity.
Qed.
End Insert.

(** itertools.permutations yields permutations *)
Lemma selects_perm {A} (l : list A) : forall x t, In (x, t) (selects l) -> Permutation (x :: t) l.
Proof.
  induction l as [|y l IH]; intros x t H; [easy|]. cbn [selects] in H. destruct H as [H|H].
  - injection H as <- <-. reflexivity.
  - apply in_map_iff in H. destruct H as ([x' t'] & E & H). injection E as <- <-. cbn [fst snd].
    apply IH in H. rewrite perm_swap. now apply perm_skip.
Qed.
Lemma kperms_perm {A} k : forall (l p : list A), length l = k -> In p (kperms k l) -> Permutation p l.
Proof.
  induction k as [|k IH]; intros l p Hl H; cbn [kperms] in H.
  - destruct l; [|discriminate]. destruct H as [<-|[]]. constructor.
  - apply in_flat_map in H. destruct H as ([x t] & Hs & H). cbn [fst snd] in H.
    apply in_map_iff in H. destruct H as (p' & <- & H). apply selects_perm in Hs.
    rewrite <- Hs. apply perm_skip. apply IH; [|exact H].
    apply Permutation_length in Hs. cbn [length] in Hs. lia.
Qed.
Lemma permutations_perm {A} (l p : list A) : In p (permutations l) -> Permutation p l.
Proof. now apply kperms_perm. Qed.

Lemma Forall2_permute {A B} (R : A -> B -> Prop) bs bs' : Permutation bs bs' ->
  forall as_, Forall2 R as_ bs -> exists as', Permutation as_ as' /\ Forall2 R as' bs'.
Proof.
  induction 1 as [|b bs bs' Hp IH|b1 b2 bs|bs bs' bs'' H1 IH1 H2 IH2]; intros l HF.
  - inversion HF. exists []. split; constructor.
  - inversion HF as [|a b' as2 bs2 Hab HF2]; subst. destruct (IH _ HF2) as (as' & P1 & P2).
    exists (a :: as'). split; [now constructor|now constructor].
  - inversion HF as [|a1 b' as2 bs2 Hab HF2]; subst. inversion HF2 as [|a2 b'' as3 bs3 Hab2 HF3]; subst.
    exists (a2 :: a1 :: as3). split; [constructor|]. constructor; [assumption|]. now constructor.
  - destruct (IH1 _ HF) as (as' & P1 & P2). destruct (IH2 _ P2) as (as'' & P3 & P4).
    exists as''. split; [now transitivity as'|exact P4].
Qed.

Lemma slice_wrap r : slice 1 (length (wrap r) - 1) (wrap r) = r.
Proof.
  unfold slice, wrap. cbn [length skipn]. rewrite app_length. cbn [length].
  replace (S (length r + 1) - 1 - 1)%nat with (length r) by lia.
  now rewrite firstn_app, firstn_all, Nat.sub_diag, app_nil_r.
Qed.

(** The result of a successful redistribution. *)
Definition redistributed eps D d C L (r1 : list nat) (rs : list (list nat)) (rds : list routedata) (delta : Z) : Prop :=
  exists rs0 ns rs', Permutation rs rs0 /\ Permutation r1 ns /\ all_inserted eps D d C L ns rs0 rs' /\     Forall2 (exact_rd D d C) rs' rds /\ delta = routes_cost D rs' - routes_cost D rs.

Lemma sumZ_perm l l' : Permutation l l' -> sumZ l = sumZ l'.
Proof. induction 1; cbn [sumZ fold_right] in *; unfold sumZ in *; lia. Qed.
Lemma routes_cost_perm D rs rs' : Permutation rs rs' -> routes_cost D rs = routes_cost D rs'.
Proof. intros H. apply sumZ_perm. now apply Permutation_map. Qed.

Lemma do_redistribute_spec eps D d C L first bd0 level r1 rs rd1 rds :
  (truthy bd0 = None /\ level = 0%nat) \/ triangle D ->
  rd_route rd1 = wrap r1 -> Forall2 (exact_rd D d C) rs rds ->
  match do_redistribute_move eps rd1 rds D d C L first bd0 level with
  | Some (e :: rds', delta) => e = empty_rd /\ redistributed eps D d C L r1 rs rds' delta /\      match truthy bd0 with Some b => delta < b | None => True end
  | Some ([], _) => False
  | None => True
  end.
Proof.
  intros Hmode R1 HF. unfold do_redistribute_move. cbv zeta.
  destruct (match truthy C with Some c => _ | None => false end); [exact I|].
  rewrite R1, slice_wrap.
  set (nos := match level with 1%nat | 3%nat => permutations r1 | _ => [r1] end).
  set (ros := match level with 2%nat | 3%nat => permutations rds | _ => [rds] end).
  set (ords := flat_map (fun ns => map (fun rs => (ns, rs)) ros) nos).
  assert (Hords : forall o, In o ords -> Permutation (fst o) r1 /\ Permutation (snd o) rds).
  { intros o Ho. unfold ords in Ho. apply in_flat_map in Ho. destruct Ho as (ns & Hns & Ho).
    apply in_map_iff in Ho. destruct Ho as (os & <- & Hos). cbn [fst snd]. split.
    - unfold nos in Hns. destruct level as [|[|[|[|]]]];
        first [apply permutations_perm in Hns; exact Hns | destruct Hns as [<-|[]]; reflexivity].
    - unfold ros in Hos. destruct level as [|[|[|[|]]]];
        first [apply permutations_perm in Hos; exact Hos | destruct Hos as [<-|[]]; reflexivity]. }
  assert (Hlev : level = 0%nat -> ords = [(r1, rds)]) by (intros ->; reflexivity).
  set (Inv := fun s : option Z * option (list routedata * Z) =>
     match snd s with
     | Some (rds', delta) => redistributed eps D d C L r1 rs rds' delta /\ fst s = Some delta /\           match truthy bd0 with Some b => delta < b | None => True end
     | None => fst s = truthy bd0
     end).
  assert (Hstep : forall o s, In o ords -> Inv s -> (fst s = None \/ triangle D) -> Inv (
     let '(best_delta, best) := s in
        match redistribute_all eps D d C L first best_delta (fst o) (snd o) 0 with
        | Some (rds, total) =>
            if lt_inf total best_delta then (Some total, Some (rds, total)) else s
        | None => s
        end)).
  { intros o [bdl best] Ho HI Hm. destruct (Hords o Ho) as [Hp1 Hp2].
    destruct (redistribute_all eps D d C L first bdl (fst o) (snd o) 0) as [[rds' total]|] eqn:E; [|exact HI].
    destruct (lt_inf total bdl) eqn:El; [|exact HI].
    destruct (Forall2_permute _ _ _ (Permutation_sym Hp2) _ HF) as (rs0 & Hr0 & HF0).
    apply (redistribute_all_spec eps D d C L first bdl Hm _ rs0) in E; [|exact HF0].
    destruct E as (rs' & HF' & HA & Ht). unfold Inv. cbn [fst snd]. split; [|split; [reflexivity|]].
    - exists rs0, (fst o), rs'. split; [exact Hr0|]. split; [now symmetry|]. split; [exact HA|]. split; [exact HF'|].
      rewrite (routes_cost_perm D rs rs0 Hr0). lia.
    - unfold Inv in HI. cbn [fst snd] in HI. destruct best as [[rds2 dl2]|].
      + destruct HI as (_ & -> & HI). unfold lt_inf in El. destruct (truthy bd0); [lia|exact I].
      + subst bdl. unfold lt_inf in El. destruct (truthy bd0); [lia|exact I]. }
  assert (HInv : Inv (fold_left (fun s o =>
        let '(best_delta, best) := s in
        match redistribute_all eps D d C L first best_delta (fst o) (snd o) 0 with
        | Some (rds, total) =>
            if lt_inf total best_delta then (Some total, Some (rds, total)) else s
        | None => s
        end) ords (truthy bd0, None))).
  { destruct Hmode as [[Hb Hl]|HT].
    - rewrite (Hlev Hl). cbn [fold_left]. apply (Hstep (r1, rds) (truthy bd0, None)).
      + rewrite (Hlev Hl). now left.
      + reflexivity.
      + left. exact Hb.
    - assert (G : forall os s, (forall o, In o os -> In o ords) -> Inv s -> Inv (fold_left (fun s o =>
        let '(best_delta, best) := s in
        match redistribute_all eps D d C L first best_delta (fst o) (snd o) 0 with
        | Some (rds, total) =>
            if lt_inf total best_delta then (Some total, Some (rds, total)) else s
        | None => s
        end) os s)).
      { induction os as [|o os IH]; intros s Hin HI; [exact HI|]. cbn [fold_left]. apply IH.
        - intros o' Ho'. apply Hin. now right.
        - apply Hstep; [apply Hin; now left|exact HI|now right]. }
      apply G; [easy|reflexivity]. }
  match type of HInv with Inv ?x => destruct x as [bdl [[rds' delta]|]] end; [|exact I].
  unfold Inv in HInv. cbn [fst snd] in HInv. tauto.
Qed.

(** ** Readable consequences of the contracts *)
Lemma op_contract_some D rel nbr rs thr eps best rds delta :
  op_contract D rel nbr rs thr eps best (Some (rds, delta)) ->
  exists rs', nbr rs' /\ rel rs' rds /\ delta = routes_cost D rs' - routes_cost D rs /\ delta + eps < thr.
Proof.
  intros (res' & HF & HR). destruct res' as [[rs' delta']|]; [|easy].
  destruct HR as [HR ->]. destruct HF as (A & B & Cc & _). exists rs'. tauto.
Qed.

Lemma two_opt_star_result eps rd1 rd2 D d C L first bd r1 r2 rds delta :
  0 <= eps -> symmetric D -> d 0%nat = 0 -> rd_route rd1 = wrap r1 -> rd_route rd2 = wrap r2 ->
  do_2optstar_move eps rd1 rd2 D d C L first bd = Some (rds, delta) ->
  exists r1' r2', map rd_route rds = [wrap r1'; wrap r2'] /\ Permutation (r1 ++ r2) (r1' ++ r2') /\
    delta = routes_cost D [r1'; r2'] - routes_cost D [r1; r2] /\
    feasible D d C L eps eps r1' /\ feasible D d C L eps eps r2'.
Proof.
  intros He Hs Hd R1 R2 H.
  pose proof (do_2optstar_contract eps rd1 rd2 D d C L first r1 r2 R1 R2 Hs Hd bd He) as HC.
  rewrite H in HC. apply op_contract_some in HC. destruct HC as (rs' & (r1' & r2' & -> & Hm & Hf1 & Hf2) & HR & Hdl & _).
  exists r1', r2'. split; [exact HR|]. split; [now apply star_customers|]. now repeat split; try apply Hf1; try apply Hf2.
Qed.

Lemma one_point_result eps rd1 rd2 D d C L first bd r1 r2 rds delta :
  0 <= eps -> exact_rd D d C r1 rd1 -> exact_rd D d C r2 rd2 ->
  do_1point_move eps rd1 rd2 D d C L first bd = Some (rds, delta) ->
  exists r1' r2', Forall2 (exact_rd D d C) [r1'; r2'] rds /\ Permutation (r1 ++ r2) (r1' ++ r2') /\
    delta = routes_cost D [r1'; r2'] - routes_cost D [r1; r2] /\
    feasible D d C L eps eps r2' /\
    ((forall n, 0 <= d n) -> within C eps (demand d r1) -> within C eps (demand d r1')) /\
    (triangle D -> within L eps (route_cost D r1) -> within L eps (route_cost D r1')).
Proof.
  intros He H1 H2 H.
  pose proof (do_1point_contract eps rd1 rd2 D d C L first r1 r2 H1 H2 bd He) as HC.
  rewrite H in HC. apply op_contract_some in HC. destruct HC as (rs' & (r1' & r2' & -> & Hm & Hf2) & HR & Hdl & _).
  exists r1', r2'. split; [exact HR|]. split; [now apply one_point_customers|]. split; [exact Hdl|]. split; [exact Hf2|].
  destruct Hm as (l1 & b & l2 & m1 & m2 & -> & -> & -> & ->). split; intros Hx HW.
  - eapply within_mono; [apply (remove_lighter d l1 b l2 (Hx b))| |exact HW]. lia.
  - eapply within_mono; [apply (remove_shorter D l1 b l2 Hx)| |exact HW]. lia.
Qed.

Lemma two_point_result eps rd1 rd2 D d C L first bd r1 r2 rds delta :
  0 <= eps -> exact_rd D d C r1 rd1 -> exact_rd D d C r2 rd2 ->
  do_2point_move eps rd1 rd2 D d C L first bd = Some (rds, delta) ->
  exists r1' r2', Forall2 (exact_rd D d C) [r1'; r2'] rds /\ Permutation (r1 ++ r2) (r1' ++ r2') /\
    delta = routes_cost D [r1'; r2'] - routes_cost D [r1; r2] /\
    feasible D d C L eps 0 r1' /\ feasible D d C L eps 0 r2'.
Proof.
  intros He H1 H2 H.
  pose proof (do_2point_contract eps rd1 rd2 D d C L first r1 r2 H1 H2 bd He) as HC.
  rewrite H in HC. apply op_contract_some in HC. destruct HC as (rs' & (r1' & r2' & -> & Hm & Hf1 & Hf2) & HR & Hdl & _).
  exists r1', r2'. split; [exact HR|]. split; [now apply two_point_customers|]. now repeat split; try apply Hf1; try apply Hf2.
Qed.

Lemma chain_result eps rd1 rd2 rd3 D d C L first bd r1 r2 r3 rds delta :
  0 <= eps -> exact_rd D d C r1 rd1 -> exact_rd D d C r2 rd2 -> exact_rd D d C r3 rd3 ->
  do_chain_move eps rd1 rd2 rd3 D d C L first bd = Some (rds, delta) ->
  exists r1' r2' r3', Forall2 (exact_rd D d C) [r1'; r2'; r3'] rds /\
    Permutation (r1 ++ r2 ++ r3) (r1' ++ r2' ++ r3') /\
    delta = routes_cost D [r1'; r2'; r3'] - routes_cost D [r1; r2; r3] /\
    feasible D d C L 0 0 r2' /\ feasible D d C L 0 0 r3' /\
    ((forall n, 0 <= d n) -> within C eps (demand d r1) -> within C eps (demand d r1')) /\
    (triangle D -> within L eps (route_cost D r1) -> within L eps (route_cost D r1')).
Proof.
  intros He H1 H2 H3 H.
  pose proof (do_chain_contract eps rd1 rd2 rd3 D d C L first r1 r2 r3 H1 H2 H3 bd He) as HC.
  rewrite H in HC. apply op_contract_some in HC. destruct HC as (rs' & (r1' & r2' & r3' & -> & Hm & Hf2 & Hf3) & HR & Hdl & _).
  exists r1', r2', r3'. split; [exact HR|]. split; [now apply chain_customers|]. split; [exact Hdl|]. split; [exact Hf2|].
  split; [exact Hf3|].
  destruct Hm as (l1 & b & l2 & m1 & e & m2 & n1 & n2 & -> & -> & -> & -> & -> & ->). split; intros Hx HW.
  - eapply within_mono; [apply (remove_lighter d l1 b l2 (Hx b))| |exact HW]. lia.
  - eapply within_mono; [apply (remove_shorter D l1 b l2 Hx)| |exact HW]. lia.
Qed.

Lemma insert_list_result eps ns rd D d C L first bd r rds delta :
  exact_rd D d C r rd ->
  do_insert_customers eps ns rd D d C L first bd = Some (rds, delta) ->
  exists q rd' ns', rds = [empty_rd; rd'] /\ exact_rd D d C q rd' /\
    Permutation ns ns' /\ interleaved r ns' q /\ delta = route_cost D q - route_cost D r /\
    within C eps (demand d q) /\ (ns <> [] -> within L eps (route_cost D q)) /\
    (ns <> [] -> match bd with Some b => delta + eps <= b | None => True end).
Proof.
  intros HX H. unfold do_insert_customers in H.
  pose proof (do_insert_list_spec eps D d C L first bd ns (sumZ (map d ns)) r rd HX (fun _ => eq_refl)) as HS.
  rewrite H in HS. destruct HS as (q & rd' & E & HE & HI & HR).
  apply inserted_interleaved in HI. destruct HI as (ns' & Hp & Hi).
  exists q, rd', ns'. tauto.
Qed.

Lemma insert_route_result eps urd rd D d C L first bd ur r rds delta :
  exact_rd D d C ur urd -> exact_rd D d C r rd ->
  do_insert_route eps urd rd D d C L first bd = Some (rds, delta) ->
  exists q rd' ur', rds = [empty_rd; rd'] /\ exact_rd D d C q rd' /\
    Permutation ur ur' /\ interleaved r ur' q /\ delta = route_cost D q - route_cost D r /\
    within C eps (demand d q) /\ (ur <> [] -> within L eps (route_cost D q)) /\
    (ur <> [] -> match bd with Some b => delta + eps <= b | None => True end).
Proof.
  intros HU HX H. unfold do_insert_route in H. pose proof (exact_dem _ _ _ _ _ HU) as Hd.
  rewrite (proj1 HU), slice_wrap in H.
  pose proof (do_insert_list_spec eps D d C L first bd ur (odem urd) r rd HX Hd) as HS.
  rewrite H in HS. destruct HS as (q & rd' & E & HE & HI & HR).
  apply inserted_interleaved in HI. destruct HI as (ns' & Hp & Hi).
  exists q, rd', ns'. tauto.
Qed.

Lemma redistribute_result eps D d C L first bd0 level r1 rs rd1 rds rds' delta :
  (start_delta bd0 = 0 /\ level = 0%nat) \/ triangle D ->
  rd_route rd1 = wrap r1 -> Forall2 (exact_rd D d C) rs rds ->
  do_redistribute_move eps rd1 rds D d C L first bd0 level = Some (rds', delta) ->
  exists rds'' rs', rds' = empty_rd :: rds'' /\ Forall2 (exact_rd D d C) rs' rds'' /\ length rs' = length rs /\
    Permutation (concat rs') (r1 ++ concat rs) /\
    delta = routes_cost D rs' - routes_cost D rs /\
    (Forall (feasible D d C L eps eps) rs -> Forall (feasible D d C L eps eps) rs') /\
    (start_delta bd0 <> 0 -> delta < start_delta bd0).
Proof.
  intros Hm R1 HF H.
  assert (Hm' : (truthy bd0 = None /\ level = 0%nat) \/ triangle D).
  { destruct Hm as [[Hb Hl]|HT]; [left|now right]. split; [|exact Hl].
    unfold start_delta in Hb. destruct (truthy bd0) eqn:E; [|reflexivity].
    apply truthy_set in E as E'. unfold truthy in E. destruct bd0 as [b|]; [|easy].
    destruct (Z.eqb_spec b 0); [discriminate|]. injection E as <-. contradiction. }
  pose proof (do_redistribute_spec eps D d C L first bd0 level r1 rs rd1 rds Hm' R1 HF) as HS.
  rewrite H in HS. destruct rds' as [|e rds']; [easy|]. destruct HS as (-> & (rs0 & ns & rs' & P1 & P2 & HA & HF' & Hd) & Hb).
  exists rds', rs'. split; [reflexivity|]. split; [exact HF'|]. split; [|split; [|split; [exact Hd|split]]].
  - rewrite (all_inserted_length _ _ _ _ _ _ _ _ HA). symmetry. now apply Permutation_length.
  - rewrite (all_inserted_perm _ _ _ _ _ _ _ _ HA), <- P2. apply Permutation_app_head.
    clear -P1. induction P1 as [| |x y l|]; [reflexivity|cbn [concat]; now apply Permutation_app_head| |etransitivity; eassumption].
    cbn [concat]. rewrite !app_assoc. apply Permutation_app_tail. apply Permutation_app_comm.
  - intros HFe. apply (all_inserted_feasible _ _ _ _ _ _ _ _ HA).
    apply Forall_forall. intros x Hx. rewrite Forall_forall in HFe. apply HFe.
    apply (Permutation_in _ (Permutation_sym P1) Hx).
  - clear -Hb. unfold start_delta, truthy in *. destruct bd0 as [b|]; [|easy].
    destruct (Z.eqb_spec b 0); [easy|]. intros _. exact Hb.
Qed.
