(** * Proofs about the suppression variant *)
From Coq Require Import Sorted ZifyBool ZifyNat.
From Verif Require Import Spec Spec_ls Spec_inter Spec_savings PyBase M_util M_routedata M_intra M_inter M_driver M_psavings M_savfam Spec_driver
  P_base P_util P_core P_intra2 P_inter P_driver P_psavings P_psavings2 P_ssavings P_ssavings2 P_savfam.

Definition key (sv : saving) : nat * nat := (snd (fst sv), snd sv).
Definition all_pairs (N : nat) : list (nat * nat) := flat_map (fun i => map (fun j => (i, j)) (range (i + 1) N)) (range 1 N).

Lemma all_pairs_length N : length (all_pairs N) = (((N - 1) * (N - 1) - (N - 1)) / 2)%nat.
Proof.
  unfold all_pairs, range.
  assert (G : forall k s, (s + k = N)%nat -> (2 * length (flat_map (fun i => map (fun j => (i, j)) (seq (i + 1) (N - (i + 1)))) (seq s k)) = k * k - k)%nat).
  { induction k as [|k IH]; intros s Hs; [reflexivity|]. cbn [seq flat_map]. rewrite app_length, map_length, seq_length.
    specialize (IH (S s) ltac:(lia)). nia. }
  destruct N as [|N]; [reflexivity|]. specialize (G N 1%nat ltac:(lia)). rewrite Nat.sub_succ, Nat.sub_0_r.
  rewrite <- G. rewrite Nat.mul_comm, Nat.div_mul by lia. reflexivity.
Qed.
Lemma all_pairs_nodup N : NoDup (all_pairs N).
Proof.
  unfold all_pairs. assert (H := seq_NoDup (N - 1) 1). change (seq 1 (N - 1)) with (range 1 N) in H. induction H as [|i l Hi H IH]; [constructor|].
  cbn [flat_map]. apply NoDup_app_intro; [|exact IH|].
  - apply FinFun.Injective_map_NoDup; [|apply seq_NoDup]. intros a b E. now injection E.
  - intros [a b] H1 H2. apply in_map_iff in H1. destruct H1 as (j & E & _). injection E as <- <-.
    apply in_flat_map in H2. destruct H2 as (i' & Hi' & H2). apply in_map_iff in H2. destruct H2 as (j' & E & _). injection E as -> _. contradiction.
Qed.
Lemma savings_list_keys N D value : Permutation (map key (savings_list N D value)) (all_pairs N).
Proof.
  unfold savings_list. rewrite (Permutation_map key (sort_reverse_perm _)). unfold all_pairs. induction (range 1 N) as [|i l IH]; [reflexivity|].
  cbn [flat_map]. rewrite map_app, map_map. apply Permutation_app; [reflexivity|exact IH].
Qed.

Lemma suppressed_pair_in sup sv : suppressed_pair sup sv = true <-> In (key sv) sup.
Proof.
  unfold suppressed_pair, key. rewrite existsb_exists. split.
  - intros ([a b] & H & E). cbn [fst snd] in E. apply andb_true_iff in E. destruct E as (E1 & E2). apply Nat.eqb_eq in E1, E2. now subst.
  - intros H. eexists. split; [exact H|]. cbn [fst snd]. now rewrite !Nat.eqb_refl.
Qed.
Lemma zero_suppressed_ok sup cache : (exists sv, In sv cache /\ ~ In (key sv) sup) ->
  exists cache', zero_suppressed sup cache = Some cache' /\ map key cache' = map key cache.
Proof.
  induction cache as [|sv t IH]; intros (sv' & Hin & Hn); [easy|]. cbn [zero_suppressed]. destruct (suppressed_pair sup sv) eqn:E.
  - apply suppressed_pair_in in E. destruct Hin as [<-|Hin]; [contradiction|]. destruct IH as (c & Ec & Hc); [now exists sv'|].
    destruct sv as [[[s x] i] j]. rewrite Ec. cbn [option_map]. eexists. split; [reflexivity|]. cbn [map]. now rewrite Hc.
  - eexists. split; reflexivity.
Qed.

Lemma suppression_function_ok N D sup cache : (length sup < length (all_pairs N))%nat ->
  (cache = [] \/ Permutation (map key cache) (all_pairs N)) ->
  exists cache' p, suppression_function N D sup cache = Some (cache', p :: sup) /\ Permutation (map key cache') (all_pairs N).
Proof.
  intros HL HC. unfold suppression_function.
  assert (G : exists c, (match cache with
     | [] => Some (fresh_cache N D sup)
     | sv :: _ => if suppressed_pair sup sv then option_map sort_reverse (zero_suppressed sup cache) else Some cache
     end) = Some c /\ Permutation (map key c) (all_pairs N)).
  { destruct cache as [|sv t] eqn:EC.
    - eexists. split; [reflexivity|]. apply savings_list_keys.
    - rewrite <- EC in *. destruct HC as [HC|HC]; [congruence|]. destruct (suppressed_pair sup sv).
      + destruct (zero_suppressed_ok sup cache) as (c & E & Hk).
        * assert (Hx : exists p, In p (map key cache) /\ ~ In p sup).
          { destruct (Forall_dec (fun p => In p sup) (fun p => in_dec (fun a b : nat * nat => ltac:(decide equality; apply Nat.eq_dec)) p sup) (map key cache)) as [Hall|Hnot].
            - exfalso. assert (HI : incl (map key cache) sup) by (intros p Hp; rewrite Forall_forall in Hall; auto).
              apply NoDup_incl_length in HI; [|apply (Permutation_NoDup (Permutation_sym HC)), all_pairs_nodup].
              apply Permutation_length in HC. lia.
            - apply Exists_Forall_neg in Hnot; [|intros p; destruct (in_dec (fun a b : nat * nat => ltac:(decide equality; apply Nat.eq_dec)) p sup); auto].
              apply Exists_exists in Hnot. exact Hnot. }
          destruct Hx as (p & Hp & Hn). apply in_map_iff in Hp. destruct Hp as (sv' & <- & Hin). now exists sv'.
        * rewrite E. cbn. eexists. split; [reflexivity|]. rewrite (Permutation_map key (sort_reverse_perm c)). now rewrite Hk.
      + eexists. split; [reflexivity|exact HC]. }
  destruct G as (c & -> & HP). destruct c as [|[[[s x] i] j] c].
  - apply Permutation_length in HP. cbn in HP. lia.
  - do 2 eexists. split; [reflexivity|exact HP].
Qed.

Section Supp.
Variables (ceps seps : Z) (N : nat) (D : matrix) (d : demands) (C L : limit) (mk : bool).
Hypothesis HN : (2 <= N)%nat.
Hypothesis Hsym : symmetric D.
Hypothesis Halone : served_alone N D d C L ceps seps.
Notation SL := (suppression_loop ceps seps N D d C L mk).

Lemma keys_valid cache : Permutation (map key cache) (all_pairs N) -> valid_pairs N cache.
Proof.
  intros HP s x i j H. assert (Hk : In (key (s, x, i, j)) (map key cache)) by now apply in_map.
  apply (Permutation_in _ HP) in Hk. unfold all_pairs, key in Hk. cbn in Hk. apply in_flat_map in Hk. destruct Hk as (i' & Hi & Hk).
  apply in_map_iff in Hk. destruct Hk as (j' & E & Hj). injection E as -> ->. apply in_seq in Hi, Hj. lia.
Qed.

Lemma suppression_loop_ok n : forall sup cache (l : list (unit * list (list nat))),
  (length sup + n <= length (all_pairs N))%nat -> (cache = [] \/ Permutation (map key cache) (all_pairs N)) ->
  exists l', SL n sup cache (sols D l) = Some (sols D (l ++ l')) /\ length l' = n /\ 
    Forall (fun x => okr ceps seps N D d C L mk (snd x)) l'.
Proof.
  induction n as [|n IH]; intros sup cache l HL HC.
  - exists []. rewrite app_nil_r. split; [reflexivity|]. split; [reflexivity|constructor].
  - cbn [suppression_loop]. destruct (suppression_function_ok N D sup cache) as (c & p & E & HP); [lia|exact HC|]. rewrite E.
    destruct (ps_sol_ok ceps seps N D d C L mk HN Hsym Halone c (keys_valid c HP)) as (rs & Es & Hrs). rewrite Es.
    replace (sols D l ++ [candidate D tt (encode rs)]) with (sols D (l ++ [(tt, rs)])) by (unfold sols; now rewrite map_app).
    destruct (IH (p :: sup) c (l ++ [(tt, rs)])) as (l' & El & Hl & HF); [cbn; lia|now right|].
    exists ((tt, rs) :: l'). rewrite El, <- app_assoc. split; [reflexivity|]. split; [cbn; now rewrite Hl|]. now constructor.
Qed.

Lemma suppression_prefix n : forall m sup cache cands c, SL (n + m) sup cache cands = Some c ->
  exists c1 t, SL n sup cache cands = Some c1 /\ c = c1 ++ t.
Proof.
  induction n as [|n IH]; intros m sup cache cands c H.
  - exists cands. cbn in *. revert sup cache cands H. induction m as [|m IHm]; intros sup cache cands H.
    + exists []. cbn in H. injection H as <-. split; [reflexivity|now rewrite app_nil_r].
    + cbn in H. destruct (suppression_function _ _ _ _) as [[c' s']|]; [|discriminate]. destruct (ps_sol _ _ _ _ _ _ _ _ _) as [sol|]; [|discriminate].
      destruct (IHm _ _ _ H) as (t & _ & ->). eexists. split; [reflexivity|]. now rewrite <- app_assoc.
  - cbn in *. destruct (suppression_function _ _ _ _) as [[c' s']|]; [|discriminate]. destruct (ps_sol _ _ _ _ _ _ _ _ _) as [sol|]; [|discriminate].
    now apply (IH m).
Qed.

Lemma count_bound Lp : (suppression_count N Lp <= length (all_pairs N))%nat.
Proof. unfold suppression_count. rewrite all_pairs_length. apply Nat.le_min_r. Qed.

Lemma suppression_ok Lp : (0 < suppression_count N Lp)%nat ->
  exists rs, suppression_savings_init ceps seps N D d C L mk Lp = Some (Some (encode rs)) /\
    serves N D d C L ceps seps rs /\ (mk = false -> routes_cost D rs <= routes_cost D (star_routes N)) /\
    forall Lp', (0 < suppression_count N Lp' <= suppression_count N Lp)%nat ->
      exists rs', suppression_savings_init ceps seps N D d C L mk Lp' = Some (Some (encode rs')) /\ serves N D d C L ceps seps rs' /\ not_beaten mk D rs rs'.
Proof.
  intros Hpos.
  assert (G : forall Lq, (0 < suppression_count N Lq)%nat -> exists l rs, SL (suppression_count N Lq) [] [] [] = Some (sols D l) /\ In (tt, rs) l /\
    suppression_savings_init ceps seps N D d C L mk Lq = Some (Some (encode rs)) /\ Forall (fun x => okr ceps seps N D d C L mk (snd x)) l /\
    forall p' rs', In (p', rs') l -> not_beaten mk D rs rs').
  { intros Lq Hq. destruct (suppression_loop_ok (suppression_count N Lq) [] [] []) as (l & E & Hl & HF); [cbn; apply count_bound|now left|].
    destruct (best_sols mk D l) as ([] & rs & Hin & Eb & Hb).
    { intros ->. cbn in Hl. lia. }
    { eapply Forall_impl; [|exact HF]. intros x Hx. now apply okr_customers in Hx. }
    exists l, rs. split; [exact E|]. split; [exact Hin|]. split; [|split; [exact HF|exact Hb]].
    unfold suppression_savings_init. change (@nil (unit * list nat * Z * nat)) with (sols D (@nil (unit * list (list nat)))). rewrite E. cbn [app]. rewrite Eb. reflexivity. }
  destruct (G Lp Hpos) as (l & rs & E & Hin & ER & HF & Hb). exists rs. split; [exact ER|]. 
  assert (HF' := HF). rewrite Forall_forall in HF'. destruct (HF' _ Hin) as (A1 & A2).
  split; [exact A1|]. split; [exact A2|]. intros Lp' Hp'. destruct (G Lp' (proj1 Hp')) as (l2 & rs2 & E2 & Hin2 & ER2 & HF2 & _).
  exists rs2. split; [exact ER2|]. split; [rewrite Forall_forall in HF2; exact (proj1 (HF2 _ Hin2))|].
  replace (suppression_count N Lp) with (suppression_count N Lp' + (suppression_count N Lp - suppression_count N Lp'))%nat in E by lia.
  destruct (suppression_prefix _ _ _ _ _ _ E) as (c1 & t & E1 & Et). rewrite E2 in E1. injection E1 as <-.
  assert (Hc : In (candidate D tt (encode rs2)) (sols D l)).
  { rewrite Et. apply in_or_app. left. apply in_map_iff. now exists (tt, rs2). }
  apply in_map_iff in Hc. destruct Hc as ([[] rs3] & Ec & Hin3). cbn [fst snd] in Ec. specialize (Hb _ _ Hin3).
  rewrite Forall_forall in HF2. specialize (HF2 _ Hin2). specialize (HF' _ Hin3). cbn [snd] in *. apply okr_customers in HF2, HF'.
  rewrite !candidate_encode in Ec by assumption. injection Ec as _ Ec1 Ec2. unfold not_beaten in *. now rewrite Ec1, Ec2 in Hb.
Qed.
End Supp.

Lemma suppression_one ceps seps D d C L mk Lp : suppression_savings_init ceps seps 2 D d C L mk Lp = Some None.
Proof.
  unfold suppression_savings_init. replace (suppression_count 2 Lp) with 0%nat; [reflexivity|]. unfold suppression_count.
  cbn -[Nat.min]. now rewrite Nat.min_0_r.
Qed.

(** ** The forms of the property files *)
Lemma parallel_serves ceps seps N D d C L mk savings :
  (2 <= N)%nat -> symmetric D -> served_alone N D d C L ceps seps -> valid_pairs N savings ->
  exists rs, parallel_savings_init ceps seps N D d C L mk savings = Some (Some (encode rs)) /\ serves N D d C L ceps seps rs.
Proof.
  intros HN Hs Ha Hv. destruct (parallel_result ceps seps N D d C L mk savings HN Hs Ha Hv) as (rs & E & A & B & F & _).
  exists rs. split; [exact E|]. split; [exact A|]. split; assumption.
Qed.
Lemma gaskell_serves ceps seps N D d C L mk m :
  (2 <= N)%nat -> symmetric D -> served_alone N D d C L ceps seps ->
  exists rs, gaskell_savings_init ceps seps N D d C L mk m = Some (Some (encode rs)) /\ serves N D d C L ceps seps rs /\
    (mk = false -> routes_cost D rs <= routes_cost D (star_routes N)).
Proof.
  intros HN Hs Ha. destruct (gaskell_ok ceps seps N D d C L mk HN Hs Ha m) as (rs & E & A & B & _). exists rs. split; [exact E|]. split; assumption.
Qed.
Lemma paessens_serves ceps seps N D d C L mk s do3 :
  (2 <= N)%nat -> symmetric D -> served_alone N D d C L ceps seps ->
  D 0%nat 0%nat = 0 -> d 0%nat = 0 -> 0 <= seps -> base_parameters s <> [] ->
  exists rs fuel0, (forall fuel, (fuel0 <= fuel)%nat -> paessens_savings_init seps ceps N D d C L mk s do3 fuel = Some (Some (encode rs))) /\
    serves N D d C L ceps seps rs /\ (mk = false -> routes_cost D rs <= routes_cost D (star_routes N)) /\
    (do3 = true -> cannot_improve seps D d C L 1 rs).
Proof.
  intros HN Hs Ha H0 Hd He Hb. destruct (paessens_ok ceps seps N D d C L mk HN Hs Ha H0 Hd He s do3 Hb) as (rs & f & E & A & B & F & _).
  exists rs, f. split; [exact E|]. split; [exact A|]. split; assumption.
Qed.
Lemma suppression_count_pos N Lp : (3 <= N)%nat -> Lp <> Some 0%nat -> (0 < suppression_count N Lp)%nat.
Proof.
  intros HN HL. unfold suppression_count. assert (1 <= ((N - 1) * (N - 1) - (N - 1)) / 2)%nat.
  { apply Nat.div_le_lower_bound; [lia|]. nia. }
  destruct Lp as [[|l]|]; [congruence|lia|]. pose proof (Nat.le_0_l ((N - 1) / 7)). lia.
Qed.
Lemma suppression_serves ceps seps N D d C L mk Lp :
  (3 <= N)%nat -> symmetric D -> served_alone N D d C L ceps seps -> Lp <> Some 0%nat ->
  exists rs, suppression_savings_init ceps seps N D d C L mk Lp = Some (Some (encode rs)) /\
    serves N D d C L ceps seps rs /\ (mk = false -> routes_cost D rs <= routes_cost D (star_routes N)).
Proof.
  intros HN Hs Ha HL. destruct (suppression_ok ceps seps N D d C L mk ltac:(lia) Hs Ha Lp (suppression_count_pos N Lp HN HL)) as (rs & E & A & B & _).
  exists rs. split; [exact E|]. split; assumption.
Qed.
Lemma serves_only N D d C L ceps seps rs : serves N D d C L ceps seps rs -> Forall customers_only rs.
Proof. intros (H & _). now apply (covers_only N). Qed.
Lemma gaskell_best ceps seps N D d C L mk m savings :
  (2 <= N)%nat -> symmetric D -> served_alone N D d C L ceps seps -> In savings (gaskell_functions N D m) ->
  exists rs rs', gaskell_savings_init ceps seps N D d C L mk m = Some (Some (encode rs)) /\
    parallel_savings_init ceps seps N D d C L mk savings = Some (Some (encode rs')) /\
    Forall customers_only rs /\ Forall customers_only rs' /\ not_beaten mk D rs rs'.
Proof.
  intros HN Hs Ha Hin. destruct (gaskell_ok ceps seps N D d C L mk HN Hs Ha m) as (rs & E & A & _ & H). destruct (H _ Hin) as (rs' & E' & A' & Hb).
  exists rs, rs'. split; [exact E|]. split; [exact E'|]. split; [now apply serves_only in A|]. split; [now apply serves_only in A'|exact Hb].
Qed.
Lemma paessens_best ceps seps N D d C L mk s do3 gf :
  (2 <= N)%nat -> symmetric D -> served_alone N D d C L ceps seps ->
  D 0%nat 0%nat = 0 -> d 0%nat = 0 -> 0 <= seps -> In gf (base_parameters s) ->
  exists rs rs' fuel0, forall fuel, (fuel0 <= fuel)%nat ->
    paessens_savings_init seps ceps N D d C L mk s do3 fuel = Some (Some (encode rs)) /\
    paessens_savings_init seps ceps N D d C L mk (Given [gf]) do3 fuel = Some (Some (encode rs')) /\
    Forall customers_only rs /\ Forall customers_only rs' /\ not_beaten mk D rs rs'.
Proof.
  intros HN Hs Ha H0 Hd He Hin.
  assert (Hne : base_parameters s <> []) by (intros E; now rewrite E in Hin).
  destruct (paessens_ok ceps seps N D d C L mk HN Hs Ha H0 Hd He s do3 Hne) as (rs & f & E & A & _ & _ & H).
  destruct (H gf Hin) as (rs' & E' & A' & Hb). exists rs, rs', f. intros fuel Hf. split; [now apply E|]. split.
  - unfold paessens_savings_init, paessens_runs. cbn [map]. rewrite (E' fuel Hf). reflexivity.
  - split; [now apply serves_only in A|]. split; [now apply serves_only in A'|exact Hb].
Qed.
Lemma suppression_best ceps seps N D d C L mk l1 l2 :
  (3 <= N)%nat -> symmetric D -> served_alone N D d C L ceps seps -> (1 <= l1 <= l2)%nat ->
  exists rs1 rs2,
    suppression_savings_init ceps seps N D d C L mk (Some l1) = Some (Some (encode rs1)) /\
    suppression_savings_init ceps seps N D d C L mk (Some l2) = Some (Some (encode rs2)) /\
    Forall customers_only rs1 /\ Forall customers_only rs2 /\ not_beaten mk D rs2 rs1.
Proof.
  intros HN Hs Ha Hl.
  assert (P1 : (0 < suppression_count N (Some l1))%nat) by (apply suppression_count_pos; [exact HN|intros E; injection E as ->; lia]).
  assert (P2 : (0 < suppression_count N (Some l2))%nat) by (apply suppression_count_pos; [exact HN|intros E; injection E as ->; lia]).
  destruct (suppression_ok ceps seps N D d C L mk ltac:(lia) Hs Ha (Some l2) P2) as (rs2 & E2 & A2 & _ & H).
  destruct (H (Some l1)) as (rs1 & E1 & A1 & Hb).
  { split; [exact P1|]. unfold suppression_count. lia. }
  exists rs1, rs2. split; [exact E1|]. split; [exact E2|]. split; [now apply serves_only in A1|]. split; [now apply serves_only in A2|exact Hb].
Qed.
