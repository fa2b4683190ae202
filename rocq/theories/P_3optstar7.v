(** * Proofs about 3-opt*: neighbourhood, soundness and local optimality *)
From Coq Require Import ZifyBool ZifyNat.
From Verif Require Import Spec Spec_inter Spec_3optstar PyBase M_util M_psavings M_intra M_3optstar P_base P_util P_cvrp P_intra P_scan P_3optstar P_3optstar2 P_3optstar3 P_3optstar4 P_3optstar5 P_3optstar6.

Lemma c1_last c : is_op c = true -> last (nodes (c1 c)) 1%nat = 0%nat.
Proof.
  destruct c as [|l rs r]; [discriminate|]. intros _. cbn [c1 nodes]. rewrite app_nil_r, last_app_ne by discriminate.
  rewrite (last_indep (encode rs) 1%nat 0%nat) by discriminate. apply last_encode.
Qed.
Lemma c2_customers c : wfc c -> customers_only (nodes (c2 c)).
Proof. destruct c as [|l rs r]; cbn [c2 nodes wfc]; [easy|]. now intros (_ & _ & H). Qed.
Lemma depot_split_chunk c : wfc c -> is_op c = true -> depot_split (nodes c) (nodes (c1 c)) (nodes (c2 c)).
Proof. intros W H. split; [apply c12|]. split; [now apply c1_last|now apply c2_customers]. Qed.

Lemma depot_split_len b b1 b2 b1' b2' : depot_split b b1 b2 -> depot_split b b1' b2' -> (length b1 <= length b1')%nat -> b1 = b1' /\ b2 = b2'.
Proof.
  intros (E & H1 & H2) (E' & H1' & H2') HL. rewrite E in E'. destruct (app_prefix b1 b2 b1' b2' E' HL) as (z & Ez & Ez').
  destruct z as [|x z] using rev_ind.
  - rewrite app_nil_r in Ez. now split.
  - exfalso. rewrite Ez, app_assoc, last_last in H1'. subst x. rewrite Ez' in H2. apply Forall_app in H2. destruct H2 as (H2 & _).
    apply Forall_app in H2. destruct H2 as (_ & H2). now apply Forall_inv in H2.
Qed.
Lemma depot_split_unique b b1 b2 b1' b2' : depot_split b b1 b2 -> depot_split b b1' b2' -> b1 = b1' /\ b2 = b2'.
Proof.
  intros H H'. destruct (Nat.le_ge_cases (length b1) (length b1')) as [G|G].
  - eapply depot_split_len; eassumption.
  - destruct (depot_split_len _ _ _ _ _ H' H G) as (-> & ->). now split.
Qed.
Lemma depot_split_op c b1 b2 : wfc c -> depot_split (nodes c) b1 b2 -> is_op c = true /\ b1 = nodes (c1 c) /\ b2 = nodes (c2 c).
Proof.
  intros W H. assert (Ho : is_op c = true).
  { destruct c as [s|]; [|reflexivity]. exfalso. destruct H as (E & H1 & H2). cbn [nodes wfc] in *. rewrite E in W. apply Forall_app in W. destruct W as (W & _).
    destruct b1 as [|x b1 _] using rev_ind; [discriminate|]. rewrite last_last in H1. subst x. apply Forall_app in W. destruct W as (_ & W). now apply Forall_inv in W. }
  split; [exact Ho|]. eapply depot_split_unique; [exact H|]. now apply depot_split_chunk.
Qed.

(** The chains are the neighbours. *)
Lemma chain_neighbour rs i j k ra pa B C pe re ch : pieces rs i j k ra pa B C pe re ->
  In ch (chains_for (Op [] ra pa) B C (Op pe re [])) -> neighbour_3optstar (encode rs) (concat (map nodes ch)).
Proof.
  intros HP Hin. destruct HP as [Hpa Hpe WB WC SB SC Wra Wre Es Li Lj Lk Er].
  set (A := Op [] ra pa) in *. set (E := Op pe re []) in *.
  assert (NA : nodes A = encode ra ++ pa) by reflexivity. assert (NE : nodes E = pe ++ encode re) by (cbn; now rewrite app_nil_r).
  exists (nodes A), (nodes B), (nodes C), (nodes E). rewrite NA at 1. rewrite NE at 1. split; [exact Es|].
  split; [discriminate|]. split; [now apply nodes_ne|]. split; [now apply nodes_ne|]. split; [rewrite NE; destruct pe; discriminate|].
  pose proof (depot_split_chunk B WB) as DB. pose proof (depot_split_chunk C WC) as DC.
  assert (H7 : In ch (firstn 7 (chains A B C E)) -> In (concat (map nodes ch)) (reconnections (nodes A) (nodes B) (nodes C) (nodes E))).
  { unfold chains, reconnections. cbn [firstn In]. intros H.
    repeat (destruct H as [<-|H]; [cbn [map concat]; rewrite ?nodes_glue, ?nodes_rv, ?nodes_glue, ?rev_app_distr, ?app_nil_r, <- ?app_assoc; tauto|]). easy. }
  assert (HB : In ch (firstn 4 (skipn 7 (chains A B C E))) -> In (concat (map nodes ch)) (reconnections_b (nodes A) (nodes (c1 B)) (nodes (c2 B)) (nodes C) (nodes E))).
  { unfold chains, reconnections_b. cbn [firstn skipn In]. intros H.
    repeat (destruct H as [<-|H]; [cbn [map concat]; rewrite ?nodes_glue, ?nodes_rv, ?nodes_glue, ?rev_app_distr, ?app_nil_r, <- ?app_assoc; tauto|]). easy. }
  assert (HC : In ch (firstn 4 (skipn 11 (chains A B C E))) -> In (concat (map nodes ch)) (reconnections_c (nodes A) (nodes B) (nodes (c1 C)) (nodes (c2 C)) (nodes E))).
  { unfold chains, reconnections_c. cbn [firstn skipn In]. intros H.
    repeat (destruct H as [<-|H]; [cbn [map concat]; rewrite ?nodes_glue, ?nodes_rv, ?nodes_glue, ?rev_app_distr, ?app_nil_r, <- ?app_assoc; tauto|]). easy. }
  unfold chains_for in Hin. destruct (is_op B) eqn:OB, (is_op C) eqn:OC.
  - replace (chains A B C E) with (firstn 7 (chains A B C E) ++ firstn 4 (skipn 7 (chains A B C E)) ++ firstn 4 (skipn 11 (chains A B C E)) ++ [[A; E; c2 B; c1 B; c2 C; c1 C]]) in Hin by reflexivity.
    rewrite !in_app_iff in Hin. destruct Hin as [H|[H|[H|[<-|[]]]]].
    + left. now apply H7.
    + right. left. exists (nodes (c1 B)), (nodes (c2 B)). split; [now apply DB|now apply HB].
    + right. right. left. exists (nodes (c1 C)), (nodes (c2 C)). split; [now apply DC|now apply HC].
    + right. right. right. exists (nodes (c1 B)), (nodes (c2 B)), (nodes (c1 C)), (nodes (c2 C)). split; [now apply DB|]. split; [now apply DC|].
      cbn [map concat]. now rewrite app_nil_r.
  - replace (firstn 11 (chains A B C E)) with (firstn 7 (chains A B C E) ++ firstn 4 (skipn 7 (chains A B C E))) in Hin by reflexivity.
    rewrite in_app_iff in Hin. destruct Hin as [H|H]; [left; now apply H7|]. right. left. exists (nodes (c1 B)), (nodes (c2 B)). split; [now apply DB|now apply HB].
  - rewrite in_app_iff in Hin. destruct Hin as [H|H]; [left; now apply H7|]. right. right. left. exists (nodes (c1 C)), (nodes (c2 C)). split; [now apply DC|now apply HC].
  - left. now apply H7.
Qed.
Lemma Forall2_in {A B} (P : A -> B -> Prop) l1 l2 : Forall2 P l1 l2 -> forall x, In x l1 -> exists y, In y l2 /\ P x y.
Proof.
  intros H. induction H as [|x y l1 l2 Hxy H IH]; intros z Hz; [easy|]. destruct Hz as [<-|Hz]; [exists y; split; [now left|exact Hxy]|].
  destruct (IH z Hz) as (w & H1 & H2). exists w. split; [now right|exact H2].
Qed.
Lemma app_len_inj {A} (a b c d : list A) : a ++ b = c ++ d -> length a = length c -> a = c /\ b = d.
Proof.
  revert c. induction a as [|x a IH]; intros [|y c] E H; cbn in *; try lia; [now split|]. injection E as -> E. destruct (IH c E) as (-> & ->); [lia|]. now split.
Qed.
Lemma neighbour_chain rs l : Forall customers_only rs -> neighbour_3optstar (encode rs) l ->
  exists i j k ra pa B C pe re ch, (i < j < k)%nat /\ (k + 1 < length (encode rs))%nat /\ pieces rs i j k ra pa B C pe re /\
    In ch (chains_for (Op [] ra pa) B C (Op pe re [])) /\ l = concat (map nodes ch).
Proof.
  intros Hrs (a & b & c & e & Es & Ha & Hb & Hc & He & HN). apply ne_len in Ha, Hb, Hc, He.
  set (i := (length a - 1)%nat). set (j := (length a + length b - 1)%nat). set (k := (length a + length b + length c - 1)%nat).
  assert (Hijk : (i < j < k)%nat) by lia. assert (Hk : (k + 1 < length (encode rs))%nat) by (rewrite Es, !app_length; lia).
  destruct (pieces_exist rs i j k Hrs Hijk Hk) as (ra & pa & B & C & pe & re & HP). exists i, j, k, ra, pa, B, C, pe, re.
  destruct HP as [Hpa Hpe WB WC SB SC Wra Wre Es' Li Lj Lk Er] eqn:EHP. clear EHP.
  rewrite Es in Es'. destruct (app_len_inj _ _ _ _ Es' ltac:(lia)) as (Ea & Es2). destruct (app_len_inj _ _ _ _ Es2 ltac:(lia)) as (Eb & Es3).
  destruct (app_len_inj _ _ _ _ Es3 ltac:(lia)) as (Ec & Ee).
  set (A := Op [] ra pa). set (E := Op pe re []).
  assert (NA : nodes A = a) by (now rewrite Ea). assert (NE : nodes E = e) by (rewrite Ee; cbn; now rewrite app_nil_r).
  assert (G : exists ch, In ch (chains_for A B C E) /\ l = concat (map nodes ch)).
  { assert (H7 : In l (reconnections a b c e) -> exists ch, In ch (firstn 7 (chains A B C E)) /\ l = concat (map nodes ch)).
    { intros H. assert (X : Forall2 (fun l ch => l = concat (map nodes ch)) (reconnections a b c e)
         [[glue A B; rv C; E]; [A; rv B; glue C E]; [A; rv B; rv C; E]; [A; C; B; E]; [A; C; rv B; E]; [A; rv C; B; E]; [A; rv (glue B C); E]]).
      { repeat apply Forall2_cons; try apply Forall2_nil; cbn [map concat]; rewrite ?nodes_glue, ?nodes_rv, ?nodes_glue, ?rev_app_distr, ?app_nil_r, <- ?app_assoc, NA, NE, <- Eb, <- Ec; reflexivity. }
      destruct (Forall2_in _ _ _ X l H) as (ch & H1 & H2). exists ch. split; [|exact H2]. cbn [In] in H1. unfold chains. cbn [firstn In]. tauto. }
    assert (HB : forall b1 b2, b1 = nodes (c1 B) -> b2 = nodes (c2 B) -> In l (reconnections_b a b1 b2 c e) -> exists ch, In ch (firstn 4 (skipn 7 (chains A B C E))) /\ l = concat (map nodes ch)).
    { intros b1 b2 E1 E2 H. assert (X : Forall2 (fun l ch => l = concat (map nodes ch)) (reconnections_b a b1 b2 c e) (firstn 4 (skipn 7 (chains A B C E)))).
      { unfold chains, reconnections_b. cbn [firstn skipn]. repeat apply Forall2_cons; try apply Forall2_nil; cbn [map concat]; rewrite ?nodes_glue, ?nodes_rv, ?nodes_glue, ?rev_app_distr, ?app_nil_r, <- ?app_assoc, NA, NE, <- ?Ec, <- E1, <- E2; reflexivity. }
      exact (Forall2_in _ _ _ X l H). }
    assert (HC : forall b1 b2, b1 = nodes (c1 C) -> b2 = nodes (c2 C) -> In l (reconnections_c a b b1 b2 e) -> exists ch, In ch (firstn 4 (skipn 11 (chains A B C E))) /\ l = concat (map nodes ch)).
    { intros b1 b2 E1 E2 H. assert (X : Forall2 (fun l ch => l = concat (map nodes ch)) (reconnections_c a b b1 b2 e) (firstn 4 (skipn 11 (chains A B C E)))).
      { unfold chains, reconnections_c. cbn [firstn skipn]. repeat apply Forall2_cons; try apply Forall2_nil; cbn [map concat]; rewrite ?nodes_glue, ?nodes_rv, ?nodes_glue, ?rev_app_distr, ?app_nil_r, <- ?app_assoc, NA, NE, <- ?Eb, <- E1, <- E2; reflexivity. }
      exact (Forall2_in _ _ _ X l H). }
    assert (Dec : chains A B C E = firstn 7 (chains A B C E) ++ firstn 4 (skipn 7 (chains A B C E)) ++ firstn 4 (skipn 11 (chains A B C E)) ++ [[A; E; c2 B; c1 B; c2 C; c1 C]]) by reflexivity.
    assert (Dec2 : firstn 11 (chains A B C E) = firstn 7 (chains A B C E) ++ firstn 4 (skipn 7 (chains A B C E))) by reflexivity.
    assert (M7 : forall ch, In ch (firstn 7 (chains A B C E)) -> In ch (chains_for A B C E)).
    { intros ch H. unfold chains_for. destruct (is_op B), (is_op C); [rewrite Dec|rewrite Dec2| |exact H]; apply in_or_app; now left. }
    rewrite Eb, Ec in *.
    destruct HN as [H|[(b1 & b2 & DS & H)|[(d1 & d2 & DS & H)|(b1 & b2 & d1 & d2 & DS1 & DS2 & H)]]].
    - destruct (H7 H) as (ch & H1 & H2). exists ch. split; [now apply M7|exact H2].
    - destruct (depot_split_op B b1 b2 WB DS) as (OB & E1 & E2). destruct (HB b1 b2 E1 E2 H) as (ch & H1 & H2). exists ch. split; [|exact H2].
      unfold chains_for. rewrite OB. destruct (is_op C); [rewrite Dec; apply in_or_app; right; apply in_or_app; now left|rewrite Dec2; apply in_or_app; now right].
    - destruct (depot_split_op C d1 d2 WC DS) as (OC & E1 & E2). destruct (HC d1 d2 E1 E2 H) as (ch & H1 & H2). exists ch. split; [|exact H2].
      unfold chains_for. rewrite OC. destruct (is_op B); [rewrite Dec; apply in_or_app; right; apply in_or_app; right; apply in_or_app; now left|apply in_or_app; now right].
    - destruct (depot_split_op B b1 b2 WB DS1) as (OB & E1 & E2). destruct (depot_split_op C d1 d2 WC DS2) as (OC & E3 & E4).
      exists [A; E; c2 B; c1 B; c2 C; c1 C]. split.
      + unfold chains_for. rewrite OB, OC, Dec. apply in_or_app. right. apply in_or_app. right. apply in_or_app. right. now left.
      + rewrite H. cbn [map concat]. rewrite NA, NE, app_nil_r, E1, E2, E3, E4. reflexivity. }
  destruct G as (ch & H1 & H2). exists ch. split; [exact Hijk|]. split; [exact Hk|]. split; [constructor; try assumption; rewrite Es, Ea, Eb, Ec, Ee; reflexivity|]. now split.
Qed.

(** ** The search *)
Definition cand_list ceps seps D d CC LL rs i j k : list (Z * (recipe * list (option nat))) :=
  let sol := encode rs in
  let n := fun x => at_ sol (end_p i j k x) in
  flat_map (fun m : list edge * recipe =>
    if check_edges ceps seps D CC LL (end_p i j k) n (cum_d_tab d sol i j k) (cum_l_tab D sol i j k) (ldepot sol (i + 1) j) (ldepot sol (j + 1) k) (0, 0)%nat (fst m) 0 0
    then [(added_weights D n (fst m) - (D (n 0%nat) (n 1%nat) + D (n 2%nat) (n 3%nat) + D (n 4%nat) (n 5%nat)), (snd m, cuts_of sol i j k))] else []) (the_moves rs i j k).
Definition triples (sN : nat) : list (nat * nat * nat) :=
  flat_map (fun i => flat_map (fun j => map (fun k => (i, j, k)) (range (j + 1) (sN - 1))) (range (i + 1) (sN - 1))) (range 0 (sN - 1)).
Lemma in_triples sN i j k : In (i, j, k) (triples sN) <-> (i < j < k)%nat /\ (k + 1 < sN)%nat.
Proof.
  unfold triples. rewrite in_flat_map. split.
  - intros (i' & H1 & H). apply in_flat_map in H. destruct H as (j' & H2 & H). apply in_map_iff in H. destruct H as (k' & E & H3). injection E as -> -> ->.
    rewrite in_range in *. lia.
  - intros H. exists i. rewrite in_range. split; [lia|]. apply in_flat_map. exists j. rewrite in_range. split; [lia|]. apply in_map_iff. exists k. split; [reflexivity|]. rewrite in_range. lia.
Qed.
Lemma for_break_map {A B S} (f : A -> B) (body : B -> S -> S * bool) l : forall s, for_break (map f l) body s = for_break l (fun x s => body (f x) s) s.
Proof. induction l as [|x l IH]; intros s; [reflexivity|]. cbn. destruct (body (f x) s) as [s' []]; [reflexivity|apply IH]. Qed.
Lemma loops_flat {S} sN (body : nat -> nat -> nat -> S -> S * bool) s :
  for_break (range 0 (sN - 1)) (fun i s => for_break (range (i + 1) (sN - 1)) (fun j s => for_break (range (j + 1) (sN - 1)) (fun k s => body i j k s) s) s) s =
  for_break (triples sN) (fun t s => body (fst (fst t)) (snd (fst t)) (snd t) s) s.
Proof.
  unfold triples. rewrite <- for_break_flat. apply for_break_ext. intros i s' _. rewrite <- for_break_flat. apply for_break_ext. intros j s'' _.
  rewrite for_break_map. reflexivity.
Qed.

Lemma try_moves_scan ceps seps D d CC LL rs first i j k s :
  try_moves (check_3opt_move ceps seps D CC LL) (encode rs) D d first i j k s = scan seps first (cand_list ceps seps D d CC LL rs i j k) s.
Proof.
  unfold try_moves, cand_list, scan. fold (the_moves rs i j k). rewrite <- for_break_flat. apply for_break_ext. intros m s' _.
  unfold check_3opt_move. cbn beta zeta. unfold try_move. set (dl := added_weights D _ (fst m) - _).
  destruct (check_edges _ _ _ _ _ _ _ _ _ _ _ _ _ _ _); cbn [for_break fst snd].
  - destruct (dl + seps <? snd s'); [destruct first; reflexivity|reflexivity].
  - destruct (dl + seps <? snd s'); reflexivity.
Qed.
Lemma do_scan ceps seps D d CC LL rs first best : do_3optstar_move ceps seps (encode rs) D d CC LL first best =
  match fst (scan seps first (flat_map (fun t => cand_list ceps seps D d CC LL rs (fst (fst t)) (snd (fst t)) (snd t)) (triples (length (encode rs))))
          (None, match best with Some b => b | None => 0 end)) with
  | (Some (r, cuts), bd) => Some (apply_recipe (encode rs) cuts r, bd)
  | (None, _) => None
  end.
Proof.
  unfold do_3optstar_move, do_3optstar_with. rewrite loops_flat. rewrite <- scan_flat.
  rewrite (for_break_ext _ _ (fun t s => scan seps first (cand_list ceps seps D d CC LL rs (fst (fst t)) (snd (fst t)) (snd t)) s)) by (intros; apply try_moves_scan).
  destruct (for_break _ _ _) as [[bm bd] b]. cbn [fst]. destruct bm as [[r cuts]|]; reflexivity.
Qed.

Lemma drops_concat R R' : drops R R' -> concat R' = concat R.
Proof. intros (_ & H). rewrite <- (concat_filter_nonempty R'), H. apply concat_filter_nonempty. Qed.
Lemma cost_filter D rs : D 0%nat 0%nat = 0 -> routes_cost D (filter nonempty rs) = routes_cost D rs.
Proof.
  intros H. induction rs as [|[|x r] rs IH]; [reflexivity| |]; cbn [filter nonempty]; rewrite ?routes_cost_cons, IH; [|reflexivity].
  unfold route_cost. cbn. lia.
Qed.
Lemma drops_cost D R R' : D 0%nat 0%nat = 0 -> drops R R' -> routes_cost D R' = routes_cost D R.
Proof. intros H0 (_ & H). rewrite <- (cost_filter D R' H0), H. now apply cost_filter. Qed.
Lemma drops_Forall (P : list nat -> Prop) R R' : drops R R' -> Forall P R -> Forall P R'.
Proof. intros (H & _) HF. rewrite Forall_forall in *. intros r Hr. apply HF, H, Hr. Qed.

Section Search.
  Variables (ceps seps : Z) (D : matrix) (d : demands) (C L : limit) (rs : list (list nat)) (first : bool) (best : option Z).
  Hypothesis Hrs : Forall customers_only rs.
  Hypothesis Hs : 0 <= seps.
  Notation start := (match best with Some b => b | None => 0 end).
  Notation all := (flat_map (fun t => cand_list ceps seps D d C L rs (fst (fst t)) (snd (fst t)) (snd t)) (triples (length (encode rs)))).

  Lemma cand_in dl r cuts : In (dl, (r, cuts)) all -> exists l Rg R', neighbour_3optstar (encode rs) l /\ encode Rg = l /\ Forall customers_only Rg /\
    apply_recipe (encode rs) cuts r = encode R' /\ drops Rg R' /\ Permutation (concat Rg) (concat rs) /\
    (symmetric D -> routes_cost D Rg = routes_cost D rs + dl /\
       (Forall (feasible D d C L ceps seps) rs -> Forall (feasible D d C L ceps seps) Rg)).
  Proof.
    intros H. apply in_flat_map in H. destruct H as (((i & j) & k) & Ht & H). apply in_triples in Ht. destruct Ht as (Hijk & Hk). cbn [fst snd] in H.
    destruct (pieces_exist rs i j k Hrs Hijk Hk) as (ra & pa & B & Cc & pe & re & HP).
    destruct (all_facts ceps seps D d C L rs i j k ra pa B Cc pe re HP) as (Hlen & HF).
    unfold cand_list in H. apply in_flat_map in H. destruct H as (m & Hm & H).
    destruct (check_edges _ _ _ _ _ _ _ _ _ _ _ _ _ _ _) eqn:Hok; [|easy]. destruct H as [H|[]]. injection H as Edl Er Ec.
    assert (Hch : exists ch, In (m, ch) (combine (the_moves rs i j k) (chains_for (Op [] ra pa) B Cc (Op pe re [])))).
    { clear - Hm Hlen. revert Hlen. generalize (chains_for (Op [] ra pa) B Cc (Op pe re [])). induction (the_moves rs i j k) as [|x l IH]; intros [|y q] Hl; try easy.
      destruct Hm as [<-|Hm]; [exists y; now left|]. destruct (IH Hm q) as (ch & Hch); [now injection Hl|]. exists ch. now right. }
    destruct Hch as (ch & Hch). destruct (HF m ch Hch) as (Rg & R' & F1 & F2 & F3 & F4 & F5 & F6).
    exists (concat (map nodes ch)), Rg, R'. split; [eapply chain_neighbour; [exact HP|]; eapply in_combine_r; exact Hch|]. split; [exact F4|]. split; [exact F3|].
    split; [now rewrite <- Er, <- Ec|]. split; [exact F2|]. split; [exact F5|]. intros HD. destruct (F6 HD) as (G1 & G2 & _). split; [now rewrite G1, Edl|]. now apply G2.
  Qed.
  Lemma cand_complete Rg : symmetric D -> nonneg_matrix D -> (forall x, 0 <= d x) -> Forall customers_only Rg -> neighbour_3optstar (encode rs) (encode Rg) ->
    Forall (feasible D d C L ceps seps) Rg -> exists m, In (routes_cost D Rg - routes_cost D rs, m) all.
  Proof.
    intros HD DN dN WR HN HF. destruct (neighbour_chain rs _ Hrs HN) as (i & j & k & ra & pa & B & Cc & pe & re & ch & Hijk & Hk & HP & Hch & El).
    destruct (all_facts ceps seps D d C L rs i j k ra pa B Cc pe re HP) as (Hlen & HA).
    assert (Hm : exists m, In (m, ch) (combine (the_moves rs i j k) (chains_for (Op [] ra pa) B Cc (Op pe re [])))).
    { clear - Hch Hlen. revert Hlen Hch. generalize (chains_for (Op [] ra pa) B Cc (Op pe re [])). induction (the_moves rs i j k) as [|x l IH]; intros [|y q] Hl Hch; try easy.
      destruct Hch as [<-|Hch]; [exists x; now left|]. destruct (IH q) as (m & Hm); [now injection Hl|exact Hch|]. exists m. now right. }
    destruct Hm as (m & Hm). destruct (HA m ch Hm) as (Rg' & R' & F1 & F2 & F3 & F4 & F5 & F6).
    assert (ER : Rg' = Rg) by (apply encode_inj; [exact F3|exact WR|congruence]). subst Rg'.
    destruct (F6 HD) as (G1 & _ & G3). specialize (G3 DN dN HF). exists (snd m, cuts_of (encode rs) i j k).
    apply in_flat_map. exists (i, j, k). split; [now apply in_triples|]. cbn [fst snd]. unfold cand_list. apply in_flat_map. exists m. split; [eapply in_combine_l; exact Hm|].
    rewrite G3. left. f_equal. rewrite G1. lia.
  Qed.

  Lemma sound sol' delta : do_3optstar_move ceps seps (encode rs) D d C L first best = Some (sol', delta) ->
    exists rs' Rg, sol' = encode rs' /\ Forall customers_only rs' /\ Permutation (concat rs') (concat rs) /\ delta + seps < start /\
      Forall customers_only Rg /\ neighbour_3optstar (encode rs) (encode Rg) /\ filter nonempty rs' = filter nonempty Rg /\
      (symmetric D -> D 0%nat 0%nat = 0 -> routes_cost D rs' = routes_cost D rs + delta) /\
      (symmetric D -> Forall (feasible D d C L ceps seps) rs -> Forall (feasible D d C L ceps seps) rs').
  Proof.
    rewrite do_scan. pose proof (scan_spec seps first all start Hs) as HS. unfold scan_post in HS. destruct (fst (scan _ _ _ _)) as [bm bd]. cbn [fst snd] in HS.
    destruct bm as [[r cuts]|]; [|discriminate]. intros E. injection E as <- <-. destruct HS as (Hin & Hlt & _).
    destruct (cand_in bd r cuts Hin) as (l & Rg & R' & HN & El & WR & Ea & HDr & HP & HS).
    exists R', Rg. split; [exact Ea|]. split; [now apply (drops_Forall _ Rg)|]. split; [now rewrite (drops_concat _ _ HDr)|]. split; [exact Hlt|]. split; [exact WR|].
    split; [now rewrite El|]. split; [apply HDr|]. split.
    - intros HD H0. rewrite (drops_cost D Rg R' H0 HDr). now apply HS.
    - intros HD HF. apply (drops_Forall _ Rg _ HDr). now apply HS.
  Qed.
  Lemma complete : symmetric D -> nonneg_matrix D -> (forall x, 0 <= d x) ->
    forall Rg, Forall customers_only Rg -> neighbour_3optstar (encode rs) (encode Rg) -> Forall (feasible D d C L ceps seps) Rg ->
    match do_3optstar_move ceps seps (encode rs) D d C L first best with
    | None => routes_cost D rs + start <= routes_cost D Rg + seps
    | Some (_, delta) => first = false -> routes_cost D rs + delta <= routes_cost D Rg + seps
    end.
  Proof.
    intros HD DN dN Rg WR HN HF. destruct (cand_complete Rg HD DN dN WR HN HF) as (m & Hin).
    rewrite do_scan. pose proof (scan_spec seps first all start Hs) as HS. unfold scan_post in HS. destruct (fst (scan _ _ _ _)) as [bm bd]. cbn [fst snd] in HS.
    destruct bm as [[r cuts]|].
    - destruct HS as (_ & _ & HS & _). intros Hf. specialize (HS Hf _ _ Hin). lia.
    - destruct HS as (_ & HS). specialize (HS _ _ Hin). lia.
  Qed.
End Search.

(** ** Any move checker *)
Lemma for_break_inv {A S} (body : A -> S -> S * bool) (Inv : S -> Prop) l :
  (forall x s, In x l -> Inv s -> Inv (fst (body x s))) -> forall s, Inv s -> Inv (fst (for_break l body s)).
Proof.
  induction l as [|x l IH]; intros H s Hs; [exact Hs|]. cbn. pose proof (H x s (or_introl eq_refl) Hs) as Hx. destruct (body x s) as [s' []]; cbn [fst] in Hx |- *; [exact Hx|].
  apply IH; [|exact Hx]. intros y t Hy. apply H. now right.
Qed.
Lemma any_checker check D d rs first best sol' delta : Forall customers_only rs ->
  do_3optstar_with check (encode rs) D d first best = Some (sol', delta) ->
  exists rs', sol' = encode rs' /\ Forall customers_only rs' /\ Permutation (concat rs') (concat rs).
Proof.
  intros Hrs. unfold do_3optstar_with. rewrite loops_flat.
  set (body := fun (t : nat * nat * nat) (s : option (recipe * list (option nat)) * Z) => try_moves check (encode rs) D d first (fst (fst t)) (snd (fst t)) (snd t) s).
  set (Inv := fun s : option (recipe * list (option nat)) * Z => match fst s with
     | Some (r, cuts) => exists rs', apply_recipe (encode rs) cuts r = encode rs' /\ Forall customers_only rs' /\ Permutation (concat rs') (concat rs) | None => True end).
  assert (H : Inv (fst (for_break (triples (length (encode rs))) body (None, match best with Some b => b | None => 0 end)))).
  { apply for_break_inv; [|exact I]. intros ((i & j) & k) s Ht Hs. apply in_triples in Ht. destruct Ht as (Hijk & Hk). unfold body, try_moves. cbn [fst snd].
    apply for_break_inv; [|exact Hs]. clear s Hs. intros m s Hm Hs. fold (the_moves rs i j k) in Hm.
    destruct (check _ _ _ _ _ _ _ _ _); cbn [fst]; [|exact Hs]. unfold Inv. cbn [fst].
    destruct (pieces_exist rs i j k Hrs Hijk Hk) as (ra & pa & B & Cc & pe & re & HP).
    destruct (all_facts 0 0 D d None None rs i j k ra pa B Cc pe re HP) as (Hlen & HF).
    assert (Hch : exists ch, In (m, ch) (combine (the_moves rs i j k) (chains_for (Op [] ra pa) B Cc (Op pe re [])))).
    { clear - Hm Hlen. revert Hlen. generalize (chains_for (Op [] ra pa) B Cc (Op pe re [])). induction (the_moves rs i j k) as [|x l IH]; intros [|y q] Hl; try easy.
      destruct Hm as [<-|Hm]; [exists y; now left|]. destruct (IH Hm q) as (ch & Hch); [now injection Hl|]. exists ch. now right. }
    destruct Hch as (ch & Hch). destruct (HF m ch Hch) as (Rg & R' & F1 & F2 & F3 & F4 & F5 & F6).
    exists R'. split; [exact F1|]. split; [now apply (drops_Forall _ Rg)|]. now rewrite (drops_concat _ _ F2). }
  destruct (for_break _ _ _) as [[bm bd] b]. cbn [fst] in H. unfold Inv in H. cbn [fst] in H. destruct bm as [[r cuts]|]; [|discriminate].
  intros E. injection E as <- <-. exact H.
Qed.

Lemma kept_and_priced ceps seps D d C L first best rs sol' delta :
    0 <= seps -> symmetric D -> D 0%nat 0%nat = 0 -> Forall customers_only rs ->
    do_3optstar_move ceps seps (encode rs) D d C L first best = Some (sol', delta) ->
    exists rs', sol' = encode rs' /\ Forall customers_only rs' /\ Permutation (concat rs') (concat rs) /\
      path_cost D sol' = path_cost D (encode rs) + delta /\
      delta + seps < match best with Some b => b | None => 0 end.
Proof.
  intros Hs HD H0 Hrs H. destruct (sound _ _ _ _ _ _ _ _ _ Hrs Hs _ _ H) as (rs' & Rg & E & W & P & Hlt & _ & _ & _ & Hc & _).
  exists rs'. split; [exact E|]. split; [exact W|]. split; [exact P|]. split; [rewrite E, !path_cost_encode; now apply Hc|exact Hlt].
Qed.
Lemma reconnection ceps seps D d C L first best rs sol' delta :
    0 <= seps -> Forall customers_only rs ->
    do_3optstar_move ceps seps (encode rs) D d C L first best = Some (sol', delta) ->
    exists rs' rs'', sol' = encode rs' /\ neighbour_3optstar (encode rs) (encode rs'') /\
      Forall customers_only rs' /\ Forall customers_only rs'' /\
      filter nonempty rs' = filter nonempty rs''.
Proof.
  intros Hs Hrs H. destruct (sound _ _ _ _ _ _ _ _ _ Hrs Hs _ _ H) as (rs' & Rg & E & W & P & Hlt & W2 & HN & HE & _).
  exists rs', Rg. now repeat split.
Qed.
Lemma stays_feasible ceps seps D d C L first best rs sol' delta :
    0 <= seps -> symmetric D -> Forall customers_only rs ->
    Forall (feasible D d C L ceps seps) rs ->
    do_3optstar_move ceps seps (encode rs) D d C L first best = Some (sol', delta) ->
    exists rs', sol' = encode rs' /\ Forall customers_only rs' /\ Forall (feasible D d C L ceps seps) rs'.
Proof.
  intros Hs HD Hrs HF H. destruct (sound _ _ _ _ _ _ _ _ _ Hrs Hs _ _ H) as (rs' & Rg & E & W & _ & _ & _ & _ & _ & _ & Hf).
  exists rs'. split; [exact E|]. split; [exact W|]. now apply Hf.
Qed.
Lemma local_optimum ceps seps D d C L first rs :
    0 <= seps -> symmetric D -> nonneg_matrix D -> (forall n, 0 <= d n) -> Forall customers_only rs ->
    do_3optstar_move ceps seps (encode rs) D d C L first None = None ->
    forall rs', Forall customers_only rs' -> neighbour_3optstar (encode rs) (encode rs') ->
      Forall (feasible D d C L ceps seps) rs' -> routes_cost D rs <= routes_cost D rs' + seps.
Proof.
  intros Hs HD DN dN Hrs H rs' W HN HF. pose proof (complete ceps seps D d C L rs first None Hrs Hs HD DN dN rs' W HN HF) as G. rewrite H in G. lia.
Qed.
Lemma best_accept ceps seps D d C L best rs sol' delta :
    0 <= seps -> symmetric D -> nonneg_matrix D -> (forall n, 0 <= d n) -> Forall customers_only rs ->
    do_3optstar_move ceps seps (encode rs) D d C L false best = Some (sol', delta) ->
    forall rs', Forall customers_only rs' -> neighbour_3optstar (encode rs) (encode rs') ->
      Forall (feasible D d C L ceps seps) rs' -> routes_cost D rs + delta <= routes_cost D rs' + seps.
Proof.
  intros Hs HD DN dN Hrs H rs' W HN HF. pose proof (complete ceps seps D d C L rs false best Hrs Hs HD DN dN rs' W HN HF) as G. rewrite H in G. now apply G.
Qed.
