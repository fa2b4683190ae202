(** * Proofs about sequential savings *)
From Coq Require Import Sorted ZifyBool ZifyNat.
From Verif Require Import Spec Spec_inter Spec_savings PyBase M_util M_psavings M_ssavings P_base P_intra2 P_driver P_inter P_psavings P_psavings2.

Lemma NoDup_app_remove_r {A} (l l' : list A) : NoDup (l ++ l') -> NoDup l.
Proof.
  intros H. apply (Permutation_NoDup (Permutation_app_comm l l')) in H. now apply NoDup_app_r in H.
Qed.
Definition NoDup_app_remove_l {A} := @NoDup_app_r A.

Definition singles (U : list nat) : list (list nat) := map (fun i => [i]) U.

Lemma mem_in x l : mem x l = true <-> In x l.
Proof. unfold mem. rewrite existsb_exists. split; [intros (y & H & E); apply Nat.eqb_eq in E; now subst|]. intros H. exists x. split; [exact H|apply Nat.eqb_refl]. Qed.
Lemma del_cons x y l : del x (y :: l) = if Nat.eqb x y then del x l else y :: del x l.
Proof. unfold del. cbn. now destruct (Nat.eqb x y). Qed.
Lemma del_notin x l : ~ In x l -> del x l = l.
Proof.
  induction l as [|y l IH]; [reflexivity|]. intros H. rewrite del_cons. destruct (Nat.eqb_spec x y); [subst; exfalso; apply H; now left|].
  f_equal. apply IH. intros H'. apply H. now right.
Qed.
Lemma del_perm x l : NoDup l -> In x l -> Permutation l (x :: del x l).
Proof.
  induction l as [|y l IH]; [easy|]. intros HN H. inversion HN as [|? ? H1 H2]; subst. rewrite del_cons.
  destruct (Nat.eqb_spec x y).
  - subst. rewrite del_notin by assumption. reflexivity.
  - destruct H as [->|H]; [easy|]. rewrite (IH H2 H) at 1. apply perm_swap.
Qed.
Lemma del_length x l : NoDup l -> In x l -> length l = S (length (del x l)).
Proof. intros H1 H2. now rewrite (Permutation_length (del_perm x l H1 H2)). Qed.

Lemma singles_cost_perm D U V : Permutation U V -> routes_cost D (singles U) = routes_cost D (singles V).
Proof.
  intros H. induction H; [reflexivity| | |congruence].
  - unfold singles in *. cbn [map]. rewrite !routes_cost_cons. lia.
  - unfold singles in *. cbn [map]. rewrite !routes_cost_cons. lia.
Qed.
Lemma single_cost D i : route_cost D [i] = D 0%nat i + D i 0%nat.
Proof. unfold route_cost. cbn. lia. Qed.

Lemma routes2sol_gen_singles U : (forall n, In n U -> n <> 0%nat) -> routes2sol_gen (map (fun n => Some [n]) U) = encode (singles U).
Proof.
  intros H. destruct U as [|u U'] eqn:EU; [reflexivity|]. rewrite <- EU in *.
  assert (EL : live (map (fun n => Some [n]) U) = singles U).
  { clear. induction U as [|x U IH]; [reflexivity|]. cbn. f_equal. exact IH. }
  assert (G : routes2sol (map (fun n => Some [n]) U) = Some (encode (singles U))).
  { rewrite <- EL. apply routes2sol_live; rewrite ?EL.
    - apply Forall_forall. intros r Hr. apply in_map_iff in Hr. destruct Hr as (x & <- & _). discriminate.
    - apply Forall_forall. intros r Hr. apply in_map_iff in Hr. destruct Hr as (x & <- & Hx). constructor; [now apply H|constructor].
    - rewrite EU. discriminate. }
  rewrite EU in *. now injection G.
Qed.

Definition cw (D : matrix) i j := D i 0%nat + D 0%nat j - D i j.

Lemma extended_cost D r i j q : symmetric D -> extended r i j q ->
  route_cost D q = route_cost D r + (D 0%nat j + D i j - D 0%nat i).
Proof.
  intros Hs (Hne & [(Hh & ->)|(Hl & ->)]).
  - change (j :: r) with ([j] ++ r). rewrite join_cost by assumption. rewrite single_cost. cbn [last]. rewrite Hh.
    pose proof (Hs i j). pose proof (Hs j 0%nat). lia.
  - rewrite join_cost by assumption. rewrite single_cost. cbn [hd]. rewrite Hl. pose proof (Hs i j). pose proof (Hs j 0%nat). lia.
Qed.
Lemma extended_demand d r i j q : extended r i j q -> demand d q = demand d r + d j.
Proof.
  intros (Hne & [(Hh & ->)|(Hl & ->)]).
  - change (demand d (j :: r)) with (d j + demand d r). lia.
  - rewrite demand_app. change (demand d [j]) with (d j + 0). lia.
Qed.
Lemma extended_perm r i j q : extended r i j q -> Permutation q (j :: r).
Proof. intros (Hne & [(Hh & ->)|(Hl & ->)]); [reflexivity|]. symmetry. apply Permutation_cons_append. Qed.

Section Merge.
Variables (ceps seps : Z) (D : matrix) (d : demands) (C L : limit) (mk : bool) (cb : list nat -> nat -> list saving) (sol : list nat).
Hypothesis Hsym : symmetric D.

Definition star U := routes_cost D (singles U).
Definition minv em rd rl U := em <> [] /\ NoDup (em ++ U) /\ feasible D d C L ceps seps em /\
  (is_set C = true -> rd = demand d em) /\ (is_set L = true -> rl = route_cost D em).

Definition is_end (em : list nat) i := hd 0%nat em = i \/ last em 0%nat = i.
Definition sinv (savings : list saving) em U := 
  (forall i j, In j U -> is_end em i ->
     (exists s x, In (s, x, i, j) savings) \/ (forall q, extended em i j q -> ~ feasible D d C L ceps seps q)) /\
  (mk = false -> StronglySorted sav_ge savings) /\ (forall s x i j, In (s, x, i, j) savings -> s = cw D i j).
Definition cb_ok := forall U i, ~ In i U -> (forall j, In j U -> exists s x, In (s, x, i, j) (cb U i)) /\
  (forall s x i' j', In (s, x, i', j') (cb U i) -> s = cw D i' j').
Definition closed em U := forall i j q, In j U -> extended em i j q -> 
  ~ feasible D d C L ceps seps q \/ (mk = false /\ cw D i j < 0).

(** the points of a run of the loop on the emerging route *)
Definition mpoint_ok (em U : list nat) (p : spoint * sstate) : Prop :=
  exists e u, snd p = mkss sol (Some e) u /\ e <> [] /\ feasible D d C L ceps seps e /\
    incl (em ++ U) (e ++ u) /\ incl (e ++ u) (em ++ U) /\
    (fst p = S_appended \/
     (fst p = S_removed /\ Permutation (e ++ u) (em ++ U) /\ (mk = false -> route_cost D e + star u <= route_cost D em + star U))).

Notation ML := (merge_loop ceps seps D d C L mk cb sol).

Lemma merge_loop_eq n s x i j (t : list saving) em rd rl U : ML n ((s, x, i, j) :: t) em rd rl U =
  (if negb mk && (D i 0%nat + D 0%nat j - D i j <? 0) then Some (em, U, [])
   else if negb (mem j U) then ML n t em rd rl U
   else if exceeds C ceps (rd + d j) then ML n t em rd rl U
   else if negb (Nat.eqb (hd 0%nat em) i || Nat.eqb (last em 0%nat) i && (1 <? length em)%nat) then ML n t em rd rl U
   else if exceeds L seps (rl + (D 0%nat j + D i j - D 0%nat i)) then ML n t em rd rl U
   else
     let em1 := if Nat.eqb (hd 0%nat em) i then j :: em else em in
     let em2 := if Nat.eqb (last em 0%nat) i && (1 <? length em)%nat then em1 ++ [j] else em1 in
     match n with
     | O => None
     | S n' =>
       match ML n' (sort_reverse (t ++ cb (del j U) j)) em2 (if is_set C then rd + d j else rd)
               (if is_set L then rl + (D 0%nat j + D i j - D 0%nat i) else rl) (del j U) with
       | None => None
       | Some (em', U'', pts) => Some (em', U'', (S_appended, mkss sol (Some em2) U) :: (S_removed, mkss sol (Some em2) (del j U)) :: pts)
       end
     end).
Proof. destruct n; reflexivity. Qed.

Lemma blocked_grow em e2 i i' j j' q2 : triangle D -> (forall n, 0 <= d n) -> NoDup (j' :: em) -> extended em i' j' e2 ->
  In i em -> (forall q, extended em i j q -> ~ feasible D d C L ceps seps q) ->
  extended e2 i j q2 -> ~ feasible D d C L ceps seps q2.
Proof.
  intros HT Hd HN (Hne & He) Hi Hb (Hne2 & Hq). inversion HN as [|? ? Hj' Hem]; subst.
  destruct He as [(Hh & ->)|(Hl & ->)]; destruct Hq as [(Hh2 & ->)|(Hl2 & ->)].
  - cbn in Hh2. subst. contradiction.
  - replace (last (j' :: em) 0%nat) with (last em 0%nat) in Hl2 by (destruct em; [easy|reflexivity]).
    apply (infeasible_extend D d C L ceps seps [] [j'] (em ++ [j])); try assumption. apply Hb. split; [assumption|]. now right.
  - replace (hd 0%nat (em ++ [j'])) with (hd 0%nat em) in Hh2 by (destruct em; [easy|reflexivity]).
    change (j :: em ++ [j']) with ((j :: em) ++ [j']). rewrite <- (app_nil_r [j']).
    apply infeasible_extend; try assumption. rewrite app_nil_r. apply Hb. split; [assumption|]. now left.
  - rewrite last_app_ne in Hl2 by discriminate. cbn in Hl2. subst. contradiction.
Qed.

Lemma merge_ok n : forall savings em rd rl U, minv em rd rl U -> (length U <= n)%nat ->
  exists em' U' pts, ML n savings em rd rl U = Some (em', U', pts) /\ em' <> [] /\ Permutation (em' ++ U') (em ++ U) /\
    feasible D d C L ceps seps em' /\ (mk = false -> route_cost D em' + star U' <= route_cost D em + star U) /\
    (length U' <= length U)%nat /\ Forall (mpoint_ok em U) pts /\ 
    (forall S0, In S0 U' -> In S0 U) /\
    (triangle D -> (forall n, 0 <= d n) -> cb_ok -> sinv savings em U -> closed em' U').
Proof.
  induction n as [n IHn] using lt_wf_ind. induction savings as [|[[[s x] i] j] t IH]; intros em rd rl U HM HL.
  { exists em, U, []. destruct HM as (H1 & H2 & H3 & H4 & H5). 
    split; [destruct n; reflexivity|]. split; [exact H1|]. split; [reflexivity|]. split; [exact H3|]. split; [lia|]. split; [lia|].
    split; [constructor|]. split; [auto|].
    intros _ _ _ (HS & _) i j q Hj Hq. left. destruct (HS i j) as [(? & ? & [])|HB]; auto.
    destruct Hq as (_ & [(Hh & _)|(Hl & _)]); [now left|now right]. }
  assert (HM' := HM). destruct HM' as (Hne & HND & HF & HrC & HrL).
  assert (NDem : NoDup em) by (apply NoDup_app_remove_r in HND; exact HND).
  rewrite merge_loop_eq.
  (* dropping the head of the list *)
  assert (Skip : (forall q, In j U -> extended em i j q -> ~ feasible D d C L ceps seps q) ->
    exists em' U' pts, ML n t em rd rl U = Some (em', U', pts) /\ em' <> [] /\ Permutation (em' ++ U') (em ++ U) /\
    feasible D d C L ceps seps em' /\ (mk = false -> route_cost D em' + star U' <= route_cost D em + star U) /\
    (length U' <= length U)%nat /\ Forall (mpoint_ok em U) pts /\ 
    (forall S0, In S0 U' -> In S0 U) /\
    (triangle D -> (forall n, 0 <= d n) -> cb_ok -> sinv ((s, x, i, j) :: t) em U -> closed em' U')).
  { intros HB. destruct (IH em rd rl U HM HL) as (em' & U' & pts & E & P1 & P2 & P3 & P4 & P5 & P6 & P7 & P8).
    exists em', U', pts. repeat (split; [assumption|]). intros HT Hd Hcb (S1 & S2 & S3). apply P8; try assumption. split; [|split].
    - intros i0 j0 Hj0 He0. destruct (S1 i0 j0 Hj0 He0) as [(s0 & x0 & [E0|Hin])|Hb0].
      + injection E0 as -> -> -> ->. right. intros q. apply HB; assumption.
      + left. eauto.
      + right. exact Hb0.
    - intros Hmk. specialize (S2 Hmk). now inversion S2.
    - intros s0 x0 i0 j0 Hin. apply (S3 s0 x0). now right. }
  destruct (negb mk && (D i 0%nat + D 0%nat j - D i j <? 0)) eqn:EN.
  { apply andb_true_iff in EN. destruct EN as (Emk & Elt). apply negb_true_iff in Emk. apply Z.ltb_lt in Elt.
    exists em, U, []. split; [reflexivity|]. split; [exact Hne|]. split; [reflexivity|]. split; [exact HF|]. split; [lia|]. split; [lia|].
    split; [constructor|]. split; [auto|].
    intros _ _ _ (S1 & S2 & S3) i0 j0 q Hj0 Hq. destruct (S1 i0 j0 Hj0) as [(s0 & x0 & Hin)|Hb].
    - destruct Hq as (_ & [(Hh & _)|(Hl & _)]); [now left|now right].
    - right. split; [assumption|]. rewrite <- (S3 s0 x0 i0 j0 Hin).
      assert (Es : s = cw D i j) by (apply (S3 s x); now left). unfold cw in Es.
      destruct Hin as [E0|Hin]; [injection E0 as <- <- <- <-; lia|].
      specialize (S2 Emk). inversion S2 as [|? ? _ HFa]; subst. rewrite Forall_forall in HFa. specialize (HFa _ Hin).
      unfold sav_ge, saving_leb in HFa. destruct (Z.eqb_spec s0 (D i 0%nat + D 0%nat j - D i j)); cbn [negb] in HFa; lia.
    - left. now apply Hb. }
  destruct (mem j U) eqn:EU; cbn [negb].
  2: { apply Skip. intros q Hj _. apply mem_in in Hj. congruence. }
  apply mem_in in EU.
  destruct (exceeds C ceps (rd + d j)) eqn:EC.
  { apply Skip. intros q _ Hq [HqC _]. apply exceeds_not_within in EC. destruct EC as (ES & EC). apply EC.
    rewrite (HrC ES). now rewrite <- (extended_demand d em i j q Hq). }
  destruct (Nat.eqb_spec (hd 0%nat em) i) as [Eh|Eh]; destruct (Nat.eqb_spec (last em 0%nat) i) as [El|El]; 
    destruct (Nat.ltb_spec 1 (length em)) as [ELen|ELen]; cbn [orb andb negb].
  all: try (exfalso; apply (hd_last_ne em); [exact NDem|exact ELen|rewrite Eh, El; reflexivity]).
  all: try (apply Skip; intros q _ (_ & [(Hh & _)|(Hl & _)]);
    first [contradiction | exfalso; destruct em as [|a [|b em]]; cbn in *; [easy|congruence|lia]]).
  all: destruct (exceeds L seps (rl + (D 0%nat j + D i j - D 0%nat i))) eqn:EL.
  all: try (apply Skip; intros q _ Hq [_ HqL]; apply exceeds_not_within in EL; destruct EL as (ES & EL); apply EL;
    rewrite (HrL ES); now rewrite <- (extended_cost D em i j q Hsym Hq)).
  all: cbv zeta;
    lazymatch goal with |- context [(S_appended, mkss _ (Some ?e) _)] => assert (HX : extended em i j e) by (split; [assumption|]; first [left; split; [assumption|reflexivity] | right; split; [assumption|reflexivity]]); set (em2 := e) in * end.
  all: destruct n as [|n]; [destruct U; [easy|cbn in HL; lia]|]; cbv beta iota.
  all: assert (HU : NoDup U) by (now apply NoDup_app_remove_l in HND).
  all: assert (PU := del_perm j U HU EU); assert (LU := del_length j U HU EU).
  all: assert (P2 : Permutation (em2 ++ del j U) (em ++ U)) by
    (rewrite (extended_perm em i j em2 HX); rewrite PU at 2; cbn; apply Permutation_middle).
  all: assert (F2 : feasible D d C L ceps seps em2) by
    (split; [rewrite (extended_demand d em i j em2 HX); destruct (is_set C) eqn:ESC; [rewrite <- (HrC eq_refl); now apply exceeds_within|now apply within_unset]
      |rewrite (extended_cost D em i j em2 Hsym HX); destruct (is_set L) eqn:ESL; [rewrite <- (HrL eq_refl); now apply exceeds_within|now apply within_unset]]).
  all: assert (N2 : em2 <> []) by (intros E0; apply extended_perm in HX; rewrite E0 in HX; apply Permutation_length in HX; cbn in HX; lia).
  all: assert (ND2 : NoDup (em2 ++ del j U)) by (eapply Permutation_NoDup; [symmetry; exact P2|exact HND]).
  all: assert (C2 : mk = false -> route_cost D em2 + star (del j U) <= route_cost D em + star U) by
    (intros Hmk; rewrite (extended_cost D em i j em2 Hsym HX); unfold star at 2; rewrite (singles_cost_perm D _ _ PU);
     change (singles (j :: del j U)) with ([j] :: singles (del j U)); rewrite routes_cost_cons, single_cost; unfold star;
     rewrite Hmk in EN; cbn [negb andb] in EN; pose proof (Hsym j 0%nat); pose proof (Hsym i 0%nat); lia).
  all: destruct (IHn n (Nat.lt_succ_diag_r n) (sort_reverse (t ++ cb (del j U) j)) em2 (if is_set C then rd + d j else rd)
        (if is_set L then rl + (D 0%nat j + D i j - D 0%nat i) else rl) (del j U)) as (em' & U' & pts & E & Q1 & Q2 & Q3 & Q4 & Q5 & Q6 & Q7 & Q8);
   [split; [exact N2|]; split; [exact ND2|]; split; [exact F2|]; split; intros ES; rewrite ES;
     [rewrite (HrC ES); now rewrite (extended_demand d em i j em2 HX)|rewrite (HrL ES); now rewrite (extended_cost D em i j em2 Hsym HX)]
   |lia|].
  all: cbv iota beta; rewrite E; exists em', U'; eexists; split; [reflexivity|]; split; [exact Q1|]; split; [now rewrite Q2|]; split; [exact Q3|];
    split; [intros Hmk; specialize (C2 Hmk); specialize (Q4 Hmk); lia|]; split; [lia|].
  all: split; [|split; [intros z Hz; apply Q7 in Hz; unfold del in Hz; apply filter_In in Hz; apply Hz|]].
  all: try (apply Forall_cons; [|apply Forall_cons];
    [exists em2, U; split; [reflexivity|]; split; [exact N2|]; split; [exact F2|]; split; [|split; [|now left]];
      [intros z Hz; apply in_app_or in Hz; destruct Hz as [Hz|Hz]; apply in_or_app; 
         [left; eapply Permutation_in; [symmetry; apply (extended_perm em i j em2 HX)|now right]|now right]
      |intros z Hz; apply in_app_or in Hz; destruct Hz as [Hz|Hz]; apply in_or_app;
         [apply (Permutation_in _ (extended_perm em i j em2 HX)) in Hz; destruct Hz as [<-|Hz]; [now right|now left]|now right]]
    |exists em2, (del j U); split; [reflexivity|]; split; [exact N2|]; split; [exact F2|]; split; [|split; [|right; split; [reflexivity|split; [exact P2|exact C2]]]];
      intros z Hz; (eapply Permutation_in; [|exact Hz]); [symmetry|]; exact P2
    |]; apply Forall_forall; intros p Hp; rewrite Forall_forall in Q6; destruct (Q6 p Hp) as (e & u & R1 & R2 & R3 & R4 & R5 & R6);
    exists e, u; split; [exact R1|]; split; [exact R2|]; split; [exact R3|]; split; [|split];
      [intros z Hz; apply R4; eapply Permutation_in; [symmetry; exact P2|exact Hz]
      |intros z Hz; apply R5 in Hz; eapply Permutation_in; [exact P2|exact Hz]
      |destruct R6 as [R6|(R6 & R7 & R8)]; [now left|right; split; [exact R6|]; split; [now rewrite R7|]; intros Hmk; specialize (R8 Hmk); specialize (C2 Hmk); lia]]).
  all: intros HT Hd Hcb (S1 & S2 & S3); apply Q8; try assumption.
  all: assert (Hjn : ~ In j (del j U)) by (unfold del; intros H0; apply filter_In in H0; destruct H0 as (_ & H0); rewrite Nat.eqb_refl in H0; discriminate).
  all: assert (Hjem : ~ In j em) by (intros H0; exact (NoDup_app_in em U j HND H0 EU)).
  all: destruct (Hcb (del j U) j Hjn) as (B1 & B2).
  all: split; [|split; [intros _; apply sort_reverse_sorted|]];
    [|intros s0 x0 i0 j0 Hin; apply (Permutation_in _ (sort_reverse_perm _)) in Hin; apply in_app_or in Hin; destruct Hin as [Hin|Hin];
      [apply (S3 s0 x0); now right|apply (B2 s0 x0); assumption]].
  all: intros i0 j0 Hj0 He0; destruct (Nat.eq_dec i0 j) as [->|Hij];
    [left; destruct (B1 j0 Hj0) as (s0 & x0 & Hin); exists s0, x0; apply (Permutation_in _ (Permutation_sym (sort_reverse_perm _))); apply in_or_app; now right|].
  all: assert (Hj0U : In j0 U /\ j0 <> j) by (unfold del in Hj0; apply filter_In in Hj0; destruct Hj0 as (? & H0); split; [assumption|]; intros ->; rewrite Nat.eqb_refl in H0; discriminate).
  all: assert (Hend : is_end em i0 /\ In i0 em) by
    (unfold em2 in He0; destruct He0 as [H0|H0];
      first [cbn in H0; congruence
            |rewrite last_app_ne in H0 by discriminate; cbn in H0; congruence
            |replace (hd 0%nat (em ++ [j])) with (hd 0%nat em) in H0 by (destruct em; [easy|reflexivity]); split; [now left|]; rewrite <- H0; now apply hd_in
            |replace (last (j :: em) 0%nat) with (last em 0%nat) in H0 by (destruct em; [easy|reflexivity]); split; [now right|]; rewrite <- H0; now apply last_in]).
  all: destruct Hend as (Hend & Hi0); destruct (S1 i0 j0 (proj1 Hj0U) Hend) as [(s0 & x0 & [E0|Hin])|Hb];
    [injection E0; intros; subst; tauto
    |left; exists s0, x0; apply (Permutation_in _ (Permutation_sym (sort_reverse_perm _))); apply in_or_app; now left
    |right; intros q Hq; apply (blocked_grow em em2 i0 i j0 j q); try assumption; constructor; [assumption|]; now apply NoDup_app_remove_r in HND].
Qed.
End Merge.
