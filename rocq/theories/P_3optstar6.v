(** * Proofs about 3-opt*: the search *)
From Coq Require Import ZifyBool ZifyNat.
From Verif Require Import Spec Spec_inter Spec_3optstar PyBase M_util M_psavings M_intra M_3optstar P_base P_util P_cvrp P_intra P_scan P_3optstar P_3optstar2 P_3optstar3 P_3optstar4 P_3optstar5.

(** ** The pieces for i < j < k *)
Record pieces (rs : list (list nat)) (i j k : nat) (ra : list (list nat)) (pa : list nat) (B C : chunk) (pe : list nat) (re : list (list nat)) : Prop := {
  pc_pa : customers_only pa; pc_pe : customers_only pe; pc_B : wfc B; pc_C : wfc C; pc_SB : solid B; pc_SC : solid C;
  pc_ra : Forall customers_only ra; pc_re : Forall customers_only re;
  pc_sol : encode rs = (encode ra ++ pa) ++ nodes B ++ nodes C ++ (pe ++ encode re);
  pc_i : S i = length (encode ra ++ pa);
  pc_j : S j = (length (encode ra ++ pa) + length (nodes B))%nat;
  pc_k : S k = (length (encode ra ++ pa) + length (nodes B) + length (nodes C))%nat;
  pc_rs : whole (Op [] ra pa) B C (Op pe re []) = Op [] rs []
}.
Lemma solid_len c : (0 < length (nodes c))%nat -> solid c.
Proof. destruct c as [[|]|]; cbn; easy || lia. Qed.
Lemma split4 {A} (l : list A) i j k : (i < j < k)%nat -> (k + 1 < length l)%nat ->
  exists a b c e, l = a ++ b ++ c ++ e /\ length a = S i /\ (length a + length b = S j)%nat /\ (length a + length b + length c = S k)%nat.
Proof.
  intros H1 H2. destruct (split_at l (S i)) as (a & l1 & -> & La); [lia|]. rewrite app_length in H2.
  destruct (split_at l1 (j - i)) as (b & l2 & -> & Lb); [lia|]. rewrite app_length in H2.
  destruct (split_at l2 (k - j)) as (c & e & -> & Lc); [lia|].
  exists a, b, c, e. split; [reflexivity|]. lia.
Qed.
Lemma pieces_exist rs i j k : Forall customers_only rs -> (i < j < k)%nat -> (k + 1 < length (encode rs))%nat ->
  exists ra pa B C pe re, pieces rs i j k ra pa B C pe re.
Proof.
  intros Hrs H1 H2. destruct (split4 (encode rs) i j k H1 H2) as (a & b & c & e & Es & La & Lb & Lc).
  destruct (chunk_first a) as (ra & pa & Wa & Na).
  { destruct a as [|x a]; [cbn in La; lia|]. cbn in Es. injection Es as <- _. reflexivity. }
  assert (Le : (0 < length e)%nat) by (rewrite Es, !app_length in H2; lia).
  destruct (chunk_last e) as (pe & re & We & Ne).
  { now apply len_ne. }
  { rewrite (last_indep e 1%nat 0%nat) by now apply len_ne. rewrite <- (last_app_ne _ (a ++ b ++ c) e) by now apply len_ne.
    rewrite <- !app_assoc, <- Es. apply last_encode. }
  destruct (chunk_of b) as (B & WB & NB). destruct (chunk_of c) as (C & WC & NC).
  exists ra, pa, B, C, pe, re. cbn [nodes] in Na, Ne. cbn [app] in Na. rewrite app_nil_r in Ne. destruct Wa as (_ & Wra & Wpa), We as (Wpe & Wre & _).
  assert (Sb : solid B) by (apply solid_len; rewrite NB; lia).
  assert (Sc : solid C) by (apply solid_len; rewrite NC; lia).
  constructor; try assumption; try (rewrite ?Na, ?NB, ?NC, ?Ne; (assumption || lia)).
  assert (Wf : wfc (whole (Op [] ra pa) B C (Op pe re []))).
  { unfold whole. repeat apply wfc_glue; try assumption; cbn; repeat split; try assumption; constructor. }
  assert (Nf : nodes (whole (Op [] ra pa) B C (Op pe re [])) = encode rs).
  { unfold whole. rewrite !nodes_glue. cbn [nodes app]. rewrite app_nil_r, Na, NB, NC, Ne, Es, <- !app_assoc. reflexivity. }
  assert (Sf : exists R, whole (Op [] ra pa) B C (Op pe re []) = Op [] R []) by (unfold whole; destruct B, C; cbn [glue]; eexists; reflexivity).
  destruct Sf as (R & Ef). rewrite Ef in *. cbn [nodes app] in Nf. rewrite app_nil_r in Nf. f_equal. destruct Wf as (_ & Wf & _).
  apply encode_inj; assumption.
Qed.

(** ** What a move does *)
Lemma Forall_firstn {A} (P : A -> Prop) n : forall l, Forall P l -> Forall P (firstn n l).
Proof. induction n as [|n IH]; intros [|x l] H; cbn; try constructor; [exact (Forall_inv H)|apply IH; exact (Forall_inv_tail H)]. Qed.
Lemma Forall_skipn {A} (P : A -> Prop) n : forall l, Forall P l -> Forall P (skipn n l).
Proof. induction n as [|n IH]; intros [|x l] H; cbn; try assumption. apply IH. exact (Forall_inv_tail H). Qed.
Lemma chain_wf A B C E : wfc A -> wfc B -> wfc C -> wfc E -> starts A ->
  Forall (fun ch => Forall wfc ch /\ match ch with Op [] R p :: _ => customers_only p | _ => False end) (chains_for A B C E).
Proof.
  intros WA WB WC WE SA. destruct A as [|[|] R p]; try easy. destruct WA as (W1 & W2 & W3).
  assert (WA : wfc (Op [] R p)) by (repeat split; assumption).
  pose proof (wfc_c1 B WB). pose proof (wfc_c2 B WB). pose proof (wfc_c1 C WC). pose proof (wfc_c2 C WC). pose proof (wfc_rv B WB). pose proof (wfc_rv C WC).
  pose proof (wfc_glue _ _ WA WB) as WAB. pose proof (wfc_glue _ _ WB WC) as WBC. pose proof (wfc_rv _ WBC). pose proof (wfc_glue _ _ WC WE).
  pose proof (wfc_glue _ _ (wfc_c2 B WB) WC). pose proof (wfc_glue _ _ WB (wfc_c1 C WC)).
  assert (Pab : match glue (Op [] R p) B with Op [] R p => customers_only p | _ => False end).
  { destruct B; cbn [glue]; cbn [glue wfc] in WAB; tauto. }
  assert (G : Forall (fun ch => Forall wfc ch /\ match ch with Op [] R p :: _ => customers_only p | _ => False end) (chains (Op [] R p) B C E)).
  { unfold chains. repeat apply Forall_cons; try apply Forall_nil; (split; [repeat apply Forall_cons; try apply Forall_nil; assumption|]); assumption. }
  unfold chains_for. destruct (is_op B), (is_op C); [exact G| | |].
  - apply Forall_firstn. exact G.
  - apply Forall_app. split; [now apply Forall_firstn|]. apply Forall_firstn, Forall_skipn, G.
  - apply Forall_firstn. exact G.
Qed.

Lemma chain_join ch Rg : Forall wfc ch -> match ch with Op [] R p :: _ => customers_only p | _ => False end -> result ch = Op [] Rg [] ->
  exists R', fold_left djoin (map nodes ch) [] = encode R' /\ drops Rg R'.
Proof.
  intros HW Hh HR. destruct ch as [|[|[|] R p] cs]; try easy. cbn [map fold_left nodes app]. rewrite djoin_nil.
  destruct (join_all cs (Forall_inv_tail HW) R R p Hh (drops_refl R)) as (R' & p' & E & H).
  unfold result in HR. cbn [tl hd] in HR. rewrite HR in H. destruct H as (<- & H). exists R'. split; [|exact H]. rewrite E. apply app_nil_r.
Qed.
Lemma result_nodes ch : ch <> [] -> nodes (result ch) = concat (map nodes ch).
Proof.
  destruct ch as [|c cs]; [easy|]. intros _. unfold result. cbn [tl hd map concat]. revert c. induction cs as [|c' cs IH]; intros c; cbn [fold_left map concat]; [now rewrite app_nil_r|].
  rewrite IH, nodes_glue, app_assoc. reflexivity.
Qed.

Lemma Forall2_conj {A B} (P Q : A -> B -> Prop) l1 l2 : Forall2 P l1 l2 -> Forall2 Q l1 l2 -> Forall2 (fun x y => P x y /\ Q x y) l1 l2.
Proof. intros H. induction H; intros H2; inversion H2; subst; constructor; auto. Qed.
Lemma Forall2_right {A B} (P : A -> B -> Prop) (Q : B -> Prop) l1 l2 : Forall2 P l1 l2 -> Forall Q l2 -> Forall2 (fun x y => P x y /\ Q y) l1 l2.
Proof. intros H. induction H; intros H2; inversion H2; subst; constructor; auto. Qed.

(** Everything about one move. *)
Definition move_facts (ceps seps : Z) (D : matrix) (d : demands) (C L : limit) (rs : list (list nat)) (i j k : nat) (m : list edge * recipe) (ch : list chunk) : Prop :=
  let sol := encode rs in
  let n := fun x => at_ sol (end_p i j k x) in
  let delta := added_weights D n (fst m) - (D (n 0%nat) (n 1%nat) + D (n 2%nat) (n 3%nat) + D (n 4%nat) (n 5%nat)) in
  let ok := check_edges ceps seps D C L (end_p i j k) n (cum_d_tab d sol i j k) (cum_l_tab D sol i j k) (ldepot sol (i + 1) j) (ldepot sol (j + 1) k) (0, 0)%nat (fst m) 0 0 in
  exists Rg R', apply_recipe sol (cuts_of sol i j k) (snd m) = encode R' /\ drops Rg R' /\ Forall customers_only Rg /\
    encode Rg = concat (map nodes ch) /\ Permutation (concat Rg) (concat rs) /\
    (symmetric D -> routes_cost D Rg = routes_cost D rs + delta /\
                    (ok = true -> Forall (feasible D d C L ceps seps) rs -> Forall (feasible D d C L ceps seps) Rg) /\
                    (nonneg_matrix D -> (forall x, 0 <= d x) -> Forall (feasible D d C L ceps seps) Rg -> ok = true)).

Lemma check_edges_ext ceps seps D C L p n n' cum_d cum_l ld12 ld34 : forall edges prev rd rl,
  Forall (fun e => (fst e <= 5)%nat /\ (snd e <= 5)%nat) edges -> (forall x, (x <= 5)%nat -> n x = n' x) ->
  check_edges ceps seps D C L p n cum_d cum_l ld12 ld34 prev edges rd rl = check_edges ceps seps D C L p n' cum_d cum_l ld12 ld34 prev edges rd rl.
Proof.
  induction edges as [|e t IH]; intros prev rd rl HF Hn; [reflexivity|]. cbn [check_edges]. destruct (Forall_inv HF) as (H1 & H2).
  rewrite (Hn _ H1), (Hn _ H2). destruct (exceeds C ceps _); [reflexivity|]. destruct (exceeds L seps _); [reflexivity|]. apply IH; [exact (Forall_inv_tail HF)|exact Hn].
Qed.
Lemma added_ext D n n' edges : Forall (fun e => (fst e <= 5)%nat /\ (snd e <= 5)%nat) edges -> (forall x, (x <= 5)%nat -> n x = n' x) ->
  added_weights D n edges = added_weights D n' edges.
Proof.
  intros HF Hn. unfold added_weights. f_equal. apply map_ext_in. intros e He. rewrite Forall_forall in HF. destruct (HF e He) as (H1 & H2). now rewrite (Hn _ H1), (Hn _ H2).
Qed.
Lemma edges_small b1 b2 : Forall (fun m : list edge * recipe => Forall (fun e : edge => (fst e <= 5)%nat /\ (snd e <= 5)%nat) (fst m)) (moves_for b1 b2).
Proof. destruct b1, b2; cbn; repeat constructor; cbn; lia. Qed.

Lemma Forall2_combine {A B} (P : A -> B -> Prop) l1 l2 : Forall2 P l1 l2 -> forall x y, In (x, y) (combine l1 l2) -> P x y.
Proof. intros H. induction H as [|x y l1 l2 Hxy H IH]; intros u v Hu; [easy|]. cbn in Hu. destruct Hu as [E|Hu]; [injection E as <- <-; exact Hxy|now apply IH]. Qed.
Lemma Forall_combine {A B} (P : B -> Prop) (l1 : list A) l2 : Forall P l2 -> forall x y, In (x, y) (combine l1 l2) -> P y.
Proof. intros H x y Hi. rewrite Forall_forall in H. apply H. eapply in_combine_r; eassumption. Qed.
Lemma Forall_combine_l {A B} (P : A -> Prop) (l1 : list A) (l2 : list B) : Forall P l1 -> forall x y, In (x, y) (combine l1 l2) -> P x.
Proof. intros H x y Hi. rewrite Forall_forall in H. apply H. eapply in_combine_l; eassumption. Qed.
Lemma drops_customers R R' : drops R R' -> Forall customers_only R -> Forall customers_only R'.
Proof. intros (H & _) HF. rewrite Forall_forall in *. intros r Hr. apply HF, H, Hr. Qed.

Definition the_moves rs i j k := moves_for (match ldepot (encode rs) (i + 1) j with Some _ => true | None => false end) (match ldepot (encode rs) (j + 1) k with Some _ => true | None => false end).
Lemma all_facts ceps seps D d CC LL rs i j k ra pa B C pe re : pieces rs i j k ra pa B C pe re ->
  length (the_moves rs i j k) = length (chains_for (Op [] ra pa) B C (Op pe re [])) /\
  forall m ch, In (m, ch) (combine (the_moves rs i j k) (chains_for (Op [] ra pa) B C (Op pe re []))) ->
    move_facts ceps seps D d CC LL rs i j k m ch.
Proof.
  intros [Hpa Hpe WB WC SB SC Wra Wre Es Li Lj Lk Er].
  pose proof (ld12_eq ra re pa pe B C i j k WB Li Lj Lk) as E12. rewrite <- Es in E12.
  pose proof (ld34_eq ra re pa pe B C i j k WC Li Lj Lk) as E34. rewrite <- Es in E34.
  pose proof (nodes_ne B SB) as NB. pose proof (nodes_ne C SC) as NC. apply ne_len in NB, NC.
  assert (Hijk : (i < j < k)%nat) by lia.
  assert (PB : is_op B = true -> (pre_len B < length (nodes B))%nat) by (destruct B; cbn [is_op pre_len nodes]; [discriminate|intros _; rewrite !app_length; cbn; lia]).
  assert (PC : is_op C = true -> (pre_len C < length (nodes C))%nat) by (destruct C; cbn [is_op pre_len nodes]; [discriminate|intros _; rewrite !app_length; cbn; lia]).
  assert (H12 : match ldepot (encode rs) (i + 1) j with Some x => is_op B = true /\ (i < x <= j)%nat | None => is_op B = false end).
  { rewrite E12. destruct (is_op B); [|reflexivity]. split; [reflexivity|]. specialize (PB eq_refl). lia. }
  assert (H34 : match ldepot (encode rs) (j + 1) k with Some x => is_op C = true /\ (j < x <= k)%nat | None => is_op C = false end).
  { rewrite E34. destruct (is_op C); [|reflexivity]. split; [reflexivity|]. specialize (PC eq_refl). lia. }
  assert (EM : the_moves rs i j k = moves_for (is_op B) (is_op C)).
  { unfold the_moves. rewrite E12, E34. destruct (is_op B), (is_op C); reflexivity. }
  rewrite EM.
  pose proof (recipes ra re pa pe B C i j k WB WC SB SC Li Lj Lk) as F1. rewrite <- Es in F1.
  split; [clear - F1; induction F1; cbn; congruence|]. intros m ch Hin.
  pose proof (Forall2_combine _ _ _ F1 m ch Hin) as A1. clear F1. cbn beta in A1.
  pose proof (Forall_combine _ _ _ (perms ra re pa pe B C) m ch Hin) as (Rg & HR & HP). rewrite Er in HP. cbn [rts] in HP.
  assert (F3 : Forall wfc ch /\ match ch with Op [] R p :: _ => customers_only p | _ => False end).
  { refine (Forall_combine _ _ _ (chain_wf (Op [] ra pa) B C (Op pe re []) _ WB WC _ I) m ch Hin); cbn; repeat split; (assumption || constructor). }
  destruct F3 as (HW & Hh). destruct (chain_join ch Rg HW Hh HR) as (R' & HJ & HDr).
  assert (Hne : ch <> []) by (intros ->; easy).
  assert (WR : wfc (result ch)).
  { destruct ch as [|c0 cs]; [easy|]. unfold result. cbn [tl hd]. pose proof (Forall_inv HW) as W0. apply Forall_inv_tail in HW. clear - HW W0.
    revert c0 W0. induction cs as [|c cs IH]; intros c0 W0; [exact W0|]. cbn [fold_left]. apply IH; [exact (Forall_inv_tail HW)|]. apply wfc_glue; [exact W0|exact (Forall_inv HW)]. }
  rewrite HR in WR. destruct WR as (_ & WR & _).
  assert (Hn : forall x, (x <= 5)%nat -> at_ (encode rs) (end_p i j k x) = tab [last pa 0%nat; fst_ B; lst_ B; fst_ C; lst_ C; hd 0%nat pe] (last pa 0%nat) x).
  { intros x Hx. rewrite Es. destruct (n_tab ra re pa pe B C i j k Hpa Hpe SB SC Li Lj Lk x) as [G|G]; [exact G|lia]. }
  pose proof (cum_d_eq ra re pa pe B C i j k Hpa Hpe WB WC SB SC Li Lj Lk d) as Ed. rewrite <- Es in Ed.
  pose proof (Forall_combine_l _ _ _ (edges_small (is_op B) (is_op C)) m ch Hin) as Hsm. cbn beta in Hsm.
  unfold move_facts. exists Rg, R'. split; [congruence|]. split; [exact HDr|]. split; [exact WR|].
  split; [rewrite <- result_nodes, HR by exact Hne; cbn [nodes app]; now rewrite app_nil_r|]. split; [exact HP|].
  intros HD. pose proof (cum_l_eq ra re pa pe B C i j k Hpa Hpe WB WC SB SC Li Lj Lk D HD) as El. rewrite <- Es in El.
  pose proof (Forall2_combine _ _ _ (costs ra re pa pe B C SB SC D HD) m ch Hin) as A2. cbn beta in A2.
  pose proof (Forall2_combine _ _ _ (feas_ok ra re pa pe B C i j k SB SC Hijk _ _ H12 H34 D d HD CC LL ceps seps) m ch Hin) as A3. cbn beta in A3.
  rewrite Er, HR in A2, A3. cbn [rts] in A2, A3.
  rewrite Ed, El. split; [|split].
  - rewrite A2, !Hn by lia. rewrite (added_ext D _ _ _ Hsm Hn). lia.
  - rewrite (check_edges_ext _ _ _ _ _ _ _ _ _ _ _ _ _ _ _ _ Hsm Hn). intros Hc HF. apply A3; [|exact HF].
    revert Hc. apply chk_iff; reflexivity.
  - intros DN dN HF.
    pose proof (Forall2_combine _ _ _ (feas_complete ra re pa pe B C i j k SB SC Hijk _ _ H12 H34 D d HD CC LL ceps seps DN dN) m ch Hin) as A4. cbn beta in A4.
    rewrite HR in A4. cbn [rts] in A4. rewrite (check_edges_ext _ _ _ _ _ _ _ _ _ _ _ _ _ _ _ _ Hsm Hn). eapply chk_iff; [reflexivity|reflexivity|]. apply A4, HF.
Qed.
