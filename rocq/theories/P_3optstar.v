(** * Proofs about 3-opt*: pieces of a solution and how they are joined *)
From Coq Require Import ZifyBool ZifyNat.
From Verif Require Import Spec Spec_inter PyBase M_util M_psavings M_3optstar P_base P_util.

(** A piece of a solution: customers only, or with depot visits in it. *)
Inductive chunk := Cl (s : list nat) | Op (l : list nat) (rs : list (list nat)) (r : list nat).
Definition nodes (c : chunk) : list nat := match c with Cl s => s | Op l rs r => l ++ encode rs ++ r end.
Definition wfc (c : chunk) : Prop :=
  match c with
  | Cl s => customers_only s
  | Op l rs r => customers_only l /\ Forall customers_only rs /\ customers_only r
  end.
Definition rvr (rs : list (list nat)) := rev (map (@rev nat) rs).
Definition rv (c : chunk) : chunk := match c with Cl s => Cl (rev s) | Op l rs r => Op (rev r) (rvr rs) (rev l) end.
Definition glue (a b : chunk) : chunk :=
  match a, b with
  | Cl s, Cl t => Cl (s ++ t)
  | Cl s, Op l rs r => Op (s ++ l) rs r
  | Op l rs r, Cl s => Op l rs (r ++ s)
  | Op l rs r, Op l' rs' r' => Op l (rs ++ [r ++ l'] ++ rs') r'
  end.

Lemma encode_app2 rs1 rs2 : encode (rs1 ++ rs2) = encode rs1 ++ flat_map (fun r => r ++ [0%nat]) rs2.
Proof. unfold encode. now rewrite flat_map_app. Qed.
Lemma encode_mid a p b t : encode a ++ p ++ encode b ++ t = encode (a ++ [p] ++ b) ++ t.
Proof. rewrite encode_app2. cbn [app flat_map]. rewrite <- !app_assoc. unfold encode. reflexivity. Qed.
Lemma nodes_glue a b : nodes (glue a b) = nodes a ++ nodes b.
Proof.
  destruct a as [s|l rs r], b as [t|l' rs' r']; cbn [glue nodes].
  - reflexivity.
  - now rewrite <- app_assoc.
  - now rewrite <- !app_assoc.
  - rewrite <- !app_assoc. f_equal. symmetry. rewrite (app_assoc r l'). apply encode_mid.
Qed.
Lemma flat_rev rs : rev (flat_map (fun r => r ++ [0%nat]) rs) ++ [0%nat] = encode (rvr rs).
Proof.
  unfold rvr. induction rs as [|r rs IH]; [reflexivity|]. cbn [flat_map map rev]. rewrite rev_app_distr, rev_app_distr. cbn [rev app].
  rewrite encode_app2, <- IH. cbn [flat_map]. rewrite <- !app_assoc. reflexivity.
Qed.
Lemma rev_encode rs : rev (encode rs) = encode (rvr rs).
Proof. unfold encode at 1. cbn [rev]. apply flat_rev. Qed.
Lemma nodes_rv c : nodes (rv c) = rev (nodes c).
Proof. destruct c as [s|l rs r]; cbn [rv nodes]; [reflexivity|]. now rewrite !rev_app_distr, rev_encode, app_assoc. Qed.
Lemma customers_rev s : customers_only s -> customers_only (rev s).
Proof. unfold customers_only. rewrite !Forall_forall. intros H x Hx. apply H. now apply in_rev. Qed.
Lemma customers_app2 s t : customers_only s -> customers_only t -> customers_only (s ++ t).
Proof. intros. apply Forall_app. now split. Qed.
Lemma wfc_rv c : wfc c -> wfc (rv c).
Proof.
  destruct c as [s|l rs r]; cbn [rv wfc]; [apply customers_rev|]. intros (A & B & C). split; [now apply customers_rev|]. split; [|now apply customers_rev].
  unfold rvr. apply Forall_rev. apply Forall_map. eapply Forall_impl; [|exact B]. apply customers_rev.
Qed.
Lemma wfc_glue a b : wfc a -> wfc b -> wfc (glue a b).
Proof.
  destruct a as [s|l rs r], b as [t|l' rs' r']; cbn [glue wfc].
  - apply customers_app2.
  - intros A (B & C & E). split; [now apply customers_app2|]. now split.
  - intros (A & B & C) E. split; [exact A|]. split; [exact B|now apply customers_app2].
  - intros (A & B & C) (E & F & G). split; [exact A|]. split; [|exact G]. apply Forall_app. split; [exact B|]. apply Forall_app. split; [|exact F].
    repeat constructor. now apply customers_app2.
Qed.

(** Every list is a chunk. *)
Lemma chunk_of l : exists c, wfc c /\ nodes c = l.
Proof.
  induction l as [|x l (c & W & E)].
  - exists (Cl []). split; [constructor|reflexivity].
  - destruct (Nat.eq_dec x 0) as [->|Hx].
    + exists (glue (Op [] [] []) c). split; [apply wfc_glue; [cbn; repeat constructor|exact W]|]. rewrite nodes_glue, E. reflexivity.
    + exists (glue (Cl [x]) c). split; [apply wfc_glue; [cbn; now repeat constructor|exact W]|]. rewrite nodes_glue, E. reflexivity.
Qed.
Lemma chunk_first l : hd_error l = Some 0%nat -> exists rs r, wfc (Op [] rs r) /\ nodes (Op [] rs r) = l.
Proof.
  destruct l as [|x l]; [discriminate|]. intros E. injection E as ->. destruct (chunk_of l) as (c & W & E).
  assert (W' : wfc (glue (Op [] [] []) c)) by (apply wfc_glue; [cbn; repeat constructor|exact W]).
  assert (E' : nodes (glue (Op [] [] []) c) = 0%nat :: l) by (rewrite nodes_glue, E; reflexivity).
  destruct c; cbn [glue] in *; do 2 eexists; split; eassumption.
Qed.
Lemma chunk_last l : l <> [] -> last l 1%nat = 0%nat -> exists r rs, wfc (Op r rs []) /\ nodes (Op r rs []) = l.
Proof.
  intros Hne Hl. destruct l as [|x l] using rev_ind; [easy|]. rewrite last_last in Hl. subst x. destruct (chunk_of l) as (c & W & E).
  assert (W' : wfc (glue c (Op [] [] []))) by (apply wfc_glue; [exact W|cbn; repeat constructor]).
  assert (E' : nodes (glue c (Op [] [] [])) = l ++ [0%nat]) by (rewrite nodes_glue, E; reflexivity).
  destruct c; cbn [glue] in *; do 2 eexists; split; eassumption.
Qed.

(** ** Joining with the depot rule *)
Definition ends0 (l : list nat) : bool := match l with [] => false | _ => Nat.eqb (last l 0%nat) 0 end.
Definition starts0 (l : list nat) : bool := match l with [] => false | x :: _ => Nat.eqb x 0 end.
Definition djoin (new seg : list nat) : list nat := new ++ (if ends0 new && starts0 seg then tl seg else seg).

(** [rs'] is [rs] without some of its empty routes. *)
Definition drops (rs rs' : list (list nat)) : Prop := incl rs' rs /\ filter nonempty rs' = filter nonempty rs.
Lemma drops_refl rs : drops rs rs.
Proof. split; [apply incl_refl|reflexivity]. Qed.
Lemma drops_app a a' b b' : drops a a' -> drops b b' -> drops (a ++ b) (a' ++ b').
Proof.
  intros (A1 & A2) (B1 & B2). split.
  - apply incl_app; [now apply incl_appl|now apply incl_appr].
  - now rewrite !filter_app, A2, B2.
Qed.

Lemma ends0_app a b : b <> [] -> ends0 (a ++ b) = ends0 b.
Proof.
  intros Hb. destruct b as [|x b] using rev_ind; [easy|]. unfold ends0. rewrite app_assoc, !last_last.
  destruct ((a ++ b) ++ [x]) eqn:E; [now destruct (a ++ b)|]. destruct (b ++ [x]) eqn:E2; [now destruct b|reflexivity].
Qed.
Lemma ends0_encode rs : ends0 (encode rs) = true.
Proof. unfold ends0. cbn [encode]. fold (encode rs). now rewrite last_encode. Qed.
Lemma ends0_customers p : customers_only p -> p <> [] -> ends0 p = false.
Proof.
  intros Hc Hp. destruct p as [|x p] using rev_ind; [easy|]. unfold ends0. destruct (p ++ [x]) eqn:E; [now destruct p|]. rewrite <- E in *. rewrite last_last.
  apply Forall_app in Hc. destruct Hc as (_ & Hc). apply Forall_inv in Hc. lia.
Qed.

(** The state after joining: routes R and the open end p. *)
Lemma djoin_cl R p s : customers_only s -> djoin (encode R ++ p) s = encode R ++ (p ++ s).
Proof.
  intros Hs. unfold djoin. replace (starts0 s) with false; [rewrite andb_false_r, app_assoc; reflexivity|].
  destruct s as [|x s]; [reflexivity|]. cbn. apply Forall_inv in Hs. lia.
Qed.
Lemma djoin_op R p l rs r : customers_only p -> customers_only l ->
  exists R', djoin (encode R ++ p) (l ++ encode rs ++ r) = encode R' ++ r /\ drops (R ++ [p ++ l] ++ rs) R'.
Proof.
  intros Hp Hl. unfold djoin. destruct p as [|x p0] eqn:Ep; [destruct l as [|y l0] eqn:El|].
  - exists (R ++ rs). cbn [app]. rewrite app_nil_r, ends0_encode. replace (starts0 (encode rs ++ r)) with true by reflexivity. cbn [andb]. split.
    + rewrite encode_app2, <- app_assoc. reflexivity.
    + apply drops_app; [apply drops_refl|]. split; [now apply incl_tl, incl_refl|reflexivity].
  - exists (R ++ [y :: l0] ++ rs). split; [|apply drops_refl]. replace (starts0 ((y :: l0) ++ encode rs ++ r)) with false.
    + rewrite andb_false_r, app_nil_r. apply (encode_mid R (y :: l0) rs r).
    + cbn. apply Forall_inv in Hl. lia.
  - rewrite <- Ep in *. exists (R ++ [p ++ l] ++ rs). split; [|apply drops_refl]. rewrite ends0_app by (rewrite Ep; discriminate).
    rewrite ends0_customers by (assumption || (rewrite Ep; discriminate)). cbn [andb]. rewrite <- app_assoc, (app_assoc p). apply encode_mid.
Qed.

Definition starts (c : chunk) : Prop := match c with Op [] _ _ => True | _ => False end.

(** Joining chunks one after the other. *)
Lemma djoin_chunk R p c : customers_only p -> wfc c ->
  exists R' p', djoin (encode R ++ p) (nodes c) = encode R' ++ p' /\ customers_only p' /\
    match glue (Op [] R p) c with Op [] Rg pg => pg = p' /\ drops Rg R' | _ => False end.
Proof.
  intros Hp W. destruct c as [s|l rs r]; cbn [nodes wfc glue] in *.
  - exists R, (p ++ s). split; [now apply djoin_cl|]. split; [now apply customers_app2|]. split; [reflexivity|apply drops_refl].
  - destruct W as (Wl & Wrs & Wr). destruct (djoin_op R p l rs r Hp Wl) as (R' & E & HD). exists R', r. split; [exact E|]. split; [exact Wr|]. now split.
Qed.
Lemma drops_trans a b c : drops a b -> drops b c -> drops a c.
Proof. intros (A1 & A2) (B1 & B2). split; [eapply incl_tran; eassumption|congruence]. Qed.
Lemma glue_drops R R' p c : drops R R' ->
  match glue (Op [] R p) c, glue (Op [] R' p) c with Op [] Ra pa, Op [] Rb pb => pa = pb /\ drops Ra Rb | _, _ => False end.
Proof. intros H. destruct c; cbn [glue]; (split; [reflexivity|]); [exact H|]. apply drops_app; [exact H|apply drops_refl]. Qed.

Lemma join_all cs : Forall wfc cs -> forall R Rg p, customers_only p -> drops Rg R ->
  exists R' p', fold_left djoin (map nodes cs) (encode R ++ p) = encode R' ++ p' /\
    match fold_left glue cs (Op [] Rg p) with Op [] Rg' pg => pg = p' /\ drops Rg' R' | _ => False end.
Proof.
  induction cs as [|c cs IH]; intros HW R Rg p Hp HD; cbn [map fold_left].
  - exists R, p. split; [reflexivity|]. now split.
  - destruct (djoin_chunk R p c Hp (Forall_inv HW)) as (R1 & p1 & E1 & Hp1 & H1). rewrite E1.
    pose proof (glue_drops Rg R p c HD) as H2. destruct (glue (Op [] Rg p) c) as [|[|] Ra pa]; try easy.
    destruct (glue (Op [] R p) c) as [|[|] Rb pb]; try easy. destruct H1 as (-> & H1), H2 as (-> & H2).
    apply (IH (Forall_inv_tail HW)); [exact Hp1|]. eapply drops_trans; eassumption.
Qed.
