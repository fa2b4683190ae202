(** * Which runs the savings variants make *)
From Coq Require Import Sorted ZifyBool ZifyNat.
From Verif Require Import Spec Spec_ls Spec_inter Spec_savings Spec_savfam PyBase M_util M_routedata M_intra M_inter M_driver M_psavings M_savfam Spec_driver
  P_base P_util P_core P_intra2 P_inter P_driver P_driver2 P_driver3 P_psavings P_psavings2 P_ssavings P_ssavings2 P_savfam P_savfam2.

Lemma sorted_strict l : StronglySorted sav_ge l -> NoDup l -> StronglySorted outranks l.
Proof.
  induction 1 as [|a l H IH HF]; intros HN; [constructor|]. inversion HN as [|? ? Hn HN']; subst. constructor; [auto|].
  rewrite Forall_forall in *. intros b Hb. specialize (HF b Hb). assert (a <> b) by (intros ->; contradiction).
  destruct a as [[[s x] i] j], b as [[[s' x'] i'] j']. unfold sav_ge, saving_leb, outranks in *.
  destruct (Z.eqb_spec s' s); cbn [negb] in HF; [|lia]. destruct (Z.eqb_spec x' x); cbn [negb] in HF; [|lia].
  destruct (Nat.eqb_spec i' i); cbn [negb] in HF; [|lia]. subst. assert (j <> j') by congruence. lia.
Qed.
Lemma key_nodup l N : Permutation (map key l) (all_pairs N) -> NoDup l.
Proof. intros H. apply (NoDup_map_inv key). apply (Permutation_NoDup (Permutation_sym H)), all_pairs_nodup. Qed.

Lemma savings_list_ranking N D value : (2 <= N)%nat -> ranking N D value (savings_list N D value).
Proof.
  intros HN. split.
  - apply sorted_strict; [apply sort_reverse_sorted|]. apply (key_nodup _ N). apply savings_list_keys.
  - intros s x i j. apply savings_list_in; assumption.
Qed.
Lemma savings_list_ext N D v w : (forall i j, (1 <= i < j)%nat -> (j < N)%nat -> v i j = w i j) -> savings_list N D v = savings_list N D w.
Proof.
  intros H. unfold savings_list. f_equal. rewrite !flat_map_concat_map. f_equal. apply map_ext_in. intros i Hi. apply map_ext_in. intros j Hj.
  unfold range in *. apply in_seq in Hi, Hj. rewrite H by lia. reflexivity.
Qed.
Lemma ranking_ext N D v w l : (forall i j, v i j = w i j) -> ranking N D v l -> ranking N D w l.
Proof. intros H (A & B). split; [exact A|]. intros s x i j. rewrite B, H. reflexivity. Qed.

(** ** Gaskell *)
Section Run.
Variables (ceps seps : Z) (N : nat) (D : matrix) (d : demands) (C L : limit) (mk : bool).
Hypothesis HN : (2 <= N)%nat.
Hypothesis Hsym : symmetric D.
Hypothesis Halone : served_alone N D d C L ceps seps.
Notation PS := (parallel_savings_init ceps seps N D d C L mk).

Lemma ps_ranked v : exists rs, PS (savings_list N D v) = Some (Some (encode rs)) /\ ps_sol ceps seps N D d C L mk (savings_list N D v) = Some (encode rs) /\ serves N D d C L ceps seps rs.
Proof.
  destruct (ps_sol_ok ceps seps N D d C L mk HN Hsym Halone (savings_list N D v) (savings_list_valid N D HN v)) as (rs & E & (H & _)).
  exists rs. split; [|split; assumption]. unfold ps_sol in E. destruct (PS _) as [[?|]|]; congruence.
Qed.

Lemma gaskell_exact :
  exists lam pi rl rp rs,
    ranking N D (lambda_value N D) lam /\ ranking N D (pi_value D) pi /\
    PS lam = Some (Some (encode rl)) /\ PS pi = Some (Some (encode rp)) /\
    Forall customers_only rl /\ Forall customers_only rp /\
    gaskell_savings_init ceps seps N D d C L mk Lambda = Some (Some (encode rl)) /\
    gaskell_savings_init ceps seps N D d C L mk Pi = Some (Some (encode rp)) /\
    gaskell_savings_init ceps seps N D d C L mk Both = Some (Some (encode rs)) /\
    (rs = rl \/ rs = rp) /\ not_beaten mk D rs rl /\ not_beaten mk D rs rp.
Proof.
  destruct (ps_ranked (lambda_value N D)) as (rl & A1 & A2 & A3). destruct (ps_ranked (pi_value D)) as (rp & B1 & B2 & B3).
  assert (E1 : gaskell_lambda N D = savings_list N D (lambda_value N D)).
  { apply savings_list_ext. intros i j _ _. unfold lambda_value, saved, total, matrix_sum, range. rewrite Nat.sub_0_r. reflexivity. }
  assert (E2 : gaskell_pi N D = savings_list N D (pi_value D)).
  { apply savings_list_ext. intros i j _ _. unfold pi_value, saved. lia. }
  assert (C1 := serves_only _ _ _ _ _ _ _ _ A3). assert (C2 := serves_only _ _ _ _ _ _ _ _ B3).
  destruct (best_sols mk D [(tt, rl); (tt, rp)]) as (p & rs & Hin & Eb & Hb); [discriminate|repeat constructor; assumption|].
  exists (savings_list N D (lambda_value N D)), (savings_list N D (pi_value D)), rl, rp, rs.
  split; [now apply savings_list_ranking|]. split; [now apply savings_list_ranking|]. split; [exact A1|]. split; [exact B1|]. split; [exact C1|]. split; [exact C2|].
  unfold gaskell_savings_init. cbn [gaskell_functions map]. rewrite E1, E2, A2, B2. cbn [all_some option_map map].
  split; [reflexivity|]. split; [reflexivity|]. split.
  - change [candidate D tt (encode rl); candidate D tt (encode rp)] with (sols D [(tt, rl); (tt, rp)]). now rewrite Eb.
  - split; [|split; [apply (Hb tt); now left|apply (Hb tt); right; now left]]. destruct Hin as [E|[E|[]]]; injection E as _ ->; auto.
Qed.

(** ** Paessens *)
Lemma paessens_list_exact g f : paessens_list N D g f = savings_list N D (paessens_value D g f).
Proof. reflexivity. Qed.

Hypothesis HD0 : D 0%nat 0%nat = 0.
Hypothesis Hd0 : d 0%nat = 0.
Hypothesis Hseps : 0 <= seps.
Notation PI s do3 fuel := (paessens_savings_init seps ceps N D d C L mk s do3 fuel).

Lemma paessens_plain g f : exists l rs, ranking N D (paessens_value D g f) l /\ PS l = Some (Some (encode rs)) /\
  Forall customers_only rs /\
  (forall fuel, PI (Given [(g, f)]) false fuel = Some (Some (encode rs))) /\
  exists rs' fuel0, forall fuel, (fuel0 <= fuel)%nat ->
    do_local_search seps (library seps D d C L) [1%nat] (encode rs) D d false IterAll None fuel = Some (encode rs') /\
    PI (Given [(g, f)]) true fuel = Some (Some (encode rs')).
Proof.
  destruct (ps_ranked (paessens_value D g f)) as (rs & A1 & A2 & A3).
  assert (HW : forall q, covers N q -> Forall (fun r => r <> []) q -> without_empty_routes (encode q) = encode q).
  { intros q H1 H2. destruct (weR_all D q HD0 (covers_only N q H1) (covers_no_repeats N HN q H1)) as (-> & _). now rewrite filter_nonempty_id. }
  exists (savings_list N D (paessens_value D g f)), rs. split; [now apply savings_list_ranking|]. split; [exact A1|].
  split; [now apply serves_only in A3|]. destruct A3 as (H1 & H2 & H3). split.
  - intros fuel. unfold paessens_savings_init, paessens_runs. cbn [map]. unfold paessens_run. cbn [fst snd]. rewrite paessens_list_exact, A2.
    rewrite HW by assumption. reflexivity.
  - destruct (intra_search seps D d C L [1%nat] false IterAll None rs (fun r => r <> [])) as (rs' & fuel0 & B1 & B2 & B3 & B4 & _); try assumption.
    { intros op [<-|[]]. lia. }
    { now apply (covers_distinct N HN). }
    { intros r q HP HC G ->. symmetry in HP. apply Permutation_nil in HP. contradiction. }
    exists rs', fuel0. intros fuel Hf. split; [now apply B1|].
    unfold paessens_savings_init, paessens_runs. cbn [map]. unfold paessens_run. cbn [fst snd]. rewrite paessens_list_exact, A2, (B1 fuel Hf).
    rewrite HW; [reflexivity| |exact B4]. unfold covers in *. now rewrite B3.
Qed.

Lemma given_run gf do3 fuel rs : paessens_run seps ceps N D d C L mk do3 fuel gf = Some (encode rs) -> PI (Given [gf]) do3 fuel = Some (Some (encode rs)).
Proof. intros E. unfold paessens_savings_init, paessens_runs. cbn [map]. rewrite E. reflexivity. Qed.

Lemma runs_result do3 l fuel0 :
  l <> [] -> Forall (fun x => okr ceps seps N D d C L mk (snd x) /\ opt3 seps D d C L do3 (snd x) /\
     forall fuel, (fuel0 <= fuel)%nat -> paessens_run seps ceps N D d C L mk do3 fuel (fst x) = Some (encode (snd x))) l ->
  exists gf rs, In gf (map fst l) /\ best_of mk (sols D l) = Some (candidate D gf (encode rs)) /\ Forall customers_only rs /\
    (forall fuel, (fuel0 <= fuel)%nat -> PI (Given [gf]) do3 fuel = Some (Some (encode rs))) /\
    forall gf', In gf' (map fst l) -> exists rs', (forall fuel, (fuel0 <= fuel)%nat -> PI (Given [gf']) do3 fuel = Some (Some (encode rs'))) /\
      Forall customers_only rs' /\ not_beaten mk D rs rs'.
Proof.
  intros Hne HF. destruct (best_sols mk D l Hne) as (p & rs & Hin & Eb & Hb).
  { eapply Forall_impl; [|exact HF]. intros x (Hx & _). now apply okr_customers in Hx. }
  rewrite Forall_forall in HF. destruct (HF _ Hin) as (A1 & _ & A2). exists p, rs.
  split; [apply in_map_iff; now exists (p, rs)|]. split; [exact Eb|]. split; [now apply okr_customers in A1|].
  split; [intros fuel Hf; apply given_run; now apply A2|]. intros gf' Hgf. apply in_map_iff in Hgf. destruct Hgf as ([g' rs'] & <- & Hin').
  destruct (HF _ Hin') as (B1 & _ & B2). exists rs'. split; [intros fuel Hf; apply given_run; now apply B2|]. split; [now apply okr_customers in B1|]. now apply (Hb g').
Qed.

(** The parameters of a finished call: those given at the start, and four more for M4. *)
Lemma paessens_all s do3 : base_parameters s <> [] ->
  exists gfs rs fuel0, incl (base_parameters s) gfs /\ (s <> M4 -> gfs = base_parameters s) /\
    (forall fuel, (fuel0 <= fuel)%nat -> PI s do3 fuel = Some (Some (encode rs))) /\ Forall customers_only rs /\
    (exists gf, In gf gfs /\ forall fuel, (fuel0 <= fuel)%nat -> PI (Given [gf]) do3 fuel = Some (Some (encode rs))) /\
    (forall gf, In gf gfs -> exists rs', (forall fuel, (fuel0 <= fuel)%nat -> PI (Given [gf]) do3 fuel = Some (Some (encode rs'))) /\
       Forall customers_only rs' /\ not_beaten mk D rs rs') /\
    (s = M4 -> exists gf rb, In gf m4_parameters /\ gfs = m4_parameters ++ m4_finetune gf /\
       (forall fuel, (fuel0 <= fuel)%nat -> PI (Given [gf]) do3 fuel = Some (Some (encode rb))) /\ Forall customers_only rb /\
       forall gf', In gf' m4_parameters -> exists rs', (forall fuel, (fuel0 <= fuel)%nat -> PI (Given [gf']) do3 fuel = Some (Some (encode rs'))) /\
         Forall customers_only rs' /\ not_beaten mk D rb rs').
Proof.
  intros Hne.
  assert (Plain : forall ps, ps <> [] -> s <> M4 -> base_parameters s = ps ->
     (forall fuel l, paessens_runs seps ceps N D d C L mk do3 fuel ps = Some l -> PI s do3 fuel = Some (option_map (fun c => snd (fst (fst c))) (best_of mk l))) ->
     exists gfs rs fuel0, incl (base_parameters s) gfs /\ (s <> M4 -> gfs = base_parameters s) /\
      (forall fuel, (fuel0 <= fuel)%nat -> PI s do3 fuel = Some (Some (encode rs))) /\ Forall customers_only rs /\
      (exists gf, In gf gfs /\ forall fuel, (fuel0 <= fuel)%nat -> PI (Given [gf]) do3 fuel = Some (Some (encode rs))) /\
      (forall gf, In gf gfs -> exists rs', (forall fuel, (fuel0 <= fuel)%nat -> PI (Given [gf]) do3 fuel = Some (Some (encode rs'))) /\
         Forall customers_only rs' /\ not_beaten mk D rs rs') /\
      (s = M4 -> exists gf rb, In gf m4_parameters /\ gfs = m4_parameters ++ m4_finetune gf /\
         (forall fuel, (fuel0 <= fuel)%nat -> PI (Given [gf]) do3 fuel = Some (Some (encode rb))) /\ Forall customers_only rb /\
         forall gf', In gf' m4_parameters -> exists rs', (forall fuel, (fuel0 <= fuel)%nat -> PI (Given [gf']) do3 fuel = Some (Some (encode rs'))) /\
           Forall customers_only rs' /\ not_beaten mk D rb rs')).
  { intros ps Hps Hs <- Hr. destruct (paessens_runs_ok ceps seps N D d C L mk HN Hsym Halone HD0 Hd0 Hseps do3 (base_parameters s)) as (l & f0 & E & H1 & H2).
    destruct (runs_result do3 l f0) as (gf & rs & A1 & A2 & A3 & A4 & A5); [intros ->; now rewrite <- E in Hps|exact H2|].
    exists (base_parameters s), rs, f0. split; [apply incl_refl|]. split; [reflexivity|]. split.
    - intros fuel Hf. rewrite (Hr fuel _ (H1 fuel Hf)), A2. reflexivity.
    - split; [exact A3|]. split; [exists gf; rewrite <- E; now split|]. split; [intros g Hg; apply A5; now rewrite E|contradiction]. }
  destruct s as [| |ps].
  - apply (Plain m1_parameters); [exact Hne|discriminate|reflexivity|]. intros fuel l E. unfold paessens_savings_init. now rewrite E.
  - destruct (paessens_runs_ok ceps seps N D d C L mk HN Hsym Halone HD0 Hd0 Hseps do3 m4_parameters) as (l & f0 & E & H1 & H2).
    assert (Hl : l <> []) by (intros ->; discriminate).
    destruct (runs_result do3 l f0 Hl H2) as (gb & rb & A1 & A2 & A3 & A4 & A5).
    destruct (paessens_runs_ok ceps seps N D d C L mk HN Hsym Halone HD0 Hd0 Hseps do3 (m4_finetune gb)) as (l' & f0' & E' & H1' & H2').
    destruct (runs_result do3 (l ++ l') (Nat.max f0 f0')) as (gf & rs & B1 & B2 & B3 & B4 & B5).
    { destruct l; [easy|discriminate]. }
    { apply Forall_app. split.
      - eapply Forall_impl; [|exact H2]. intros x (G1 & G2 & G3). split; [exact G1|]. split; [exact G2|]. intros fuel Hf. apply G3. lia.
      - eapply Forall_impl; [|exact H2']. intros x (G1 & G2 & G3). split; [exact G1|]. split; [exact G2|]. intros fuel Hf. apply G3. lia. }
    rewrite map_app, E, E' in B1, B5. rewrite E in A1, A5.
    exists (m4_parameters ++ m4_finetune gb), rs, (Nat.max f0 f0'). split; [apply incl_appl, incl_refl|]. split; [congruence|]. split.
    + intros fuel Hf. unfold paessens_savings_init. rewrite (H1 fuel) by lia. rewrite A2. cbn [candidate fst snd]. rewrite (H1' fuel) by lia.
      rewrite <- best_sols_app, B2. reflexivity.
    + split; [exact B3|]. split; [exists gf; now split|]. split; [exact B5|]. intros _. exists gb, rb. split; [exact A1|]. split; [reflexivity|].
      split; [intros fuel Hf; apply A4; lia|]. split; [exact A3|]. intros g Hg. destruct (A5 g Hg) as (r & X1 & X2). exists r. split; [|exact X2]. intros fuel Hf. apply X1. lia.
  - apply (Plain ps); [exact Hne|discriminate|reflexivity|]. intros fuel l E. unfold paessens_savings_init. now rewrite E.
Qed.

(** ** Suppression *)
Definition heads (ls : list (list saving)) : list (nat * nat) := flat_map (fun l => match l with [] => [] | sv :: _ => [key sv] end) ls.
Lemma heads_first ls i j : existsb (first_of i j) ls = existsb (fun p => Nat.eqb (fst p) i && Nat.eqb (snd p) j) (heads ls).
Proof.
  unfold heads. induction ls as [|[|[[[s x] a] b] t] ls IH]; [reflexivity|exact IH|]. cbn [existsb flat_map app first_of key fst snd]. now rewrite IH.
Qed.
Definition zeroed (sup : list (nat * nat)) i j : Z :=
  if existsb (fun p => Nat.eqb (fst p) i && Nat.eqb (snd p) j) sup then 0 else Z.max 0 (saved D i j).
Lemma zeroed_incl s1 s2 : (forall p, In p s1 <-> In p s2) -> forall i j, zeroed s1 i j = zeroed s2 i j.
Proof.
  intros H i j. unfold zeroed.
  replace (existsb (fun p : nat * nat => Nat.eqb (fst p) i && Nat.eqb (snd p) j) s2) with (existsb (fun p : nat * nat => Nat.eqb (fst p) i && Nat.eqb (snd p) j) s1); [reflexivity|].
  apply eq_iff_eq_true. rewrite !existsb_exists. split; intros (p & Hp & E); exists p; (split; [now apply H|exact E]).
Qed.
Lemma zeroed_key sup sv : In (key sv) sup -> zeroed sup (snd (fst sv)) (snd sv) = 0.
Proof.
  intros H. apply suppressed_pair_in in H. unfold suppressed_pair in H. unfold zeroed. now rewrite H.
Qed.
Lemma ranking_keys v l : ranking N D v l -> NoDup (map key l).
Proof.
  intros (HS & HI). assert (G : forall t, StronglySorted outranks t -> incl t l -> NoDup (map key t)).
  { induction 1 as [|a t Ht IH HF]; intros Hincl; [constructor|]. cbn [map]. constructor; [|apply IH; intros y Hy; apply Hincl; now right].
    intros Hin. apply in_map_iff in Hin. destruct Hin as (b & E & Hb). assert (Ha : In a l) by (apply Hincl; now left). assert (Hb' : In b l) by (apply Hincl; now right).
    destruct a as [[[s x] i] j], b as [[[s' x'] i'] j']. cbn [key fst snd] in E. unfold key in E. cbn [fst snd] in E. injection E as -> ->. apply HI in Ha, Hb'. rewrite Forall_forall in HF. specialize (HF _ Hb). cbn [outranks] in HF. lia. }
  apply (G l HS), incl_refl.
Qed.
Definition zero_sv (sv : saving) : saving := let '(_, x, i, j) := sv in (0, x, i, j).
Lemma zero_suppressed_in sup sv0 t c :
  ranking N D (zeroed sup) (sv0 :: t) -> zero_suppressed (key sv0 :: sup) (sv0 :: t) = Some c ->
  c = map (fun sv => if suppressed_pair (key sv0 :: sup) sv then zero_sv sv else sv) (sv0 :: t).
Proof.
  intros HR. assert (HK := ranking_keys _ _ HR). set (sup' := key sv0 :: sup).
  assert (G : forall l, incl l (sv0 :: t) -> (In (key sv0) (map key l) -> exists l', l = sv0 :: l' /\ ~ In (key sv0) (map key l')) -> forall c, zero_suppressed sup' l = Some c ->
    c = map (fun sv => if suppressed_pair sup' sv then zero_sv sv else sv) l).
  2: { apply G; [apply incl_refl|]. intros _. exists t. split; [reflexivity|]. cbn [map] in HK. now inversion HK. }
  induction l as [|sv l IH]; intros Hincl Hsv c0 E; [discriminate|]. cbn [zero_suppressed] in E. cbn [map]. destruct (suppressed_pair sup' sv) eqn:ES.
  - destruct sv as [[[s x] i] j]. destruct (zero_suppressed sup' l) as [c1|] eqn:E1; [|discriminate]. injection E as <-. f_equal. apply IH; [intros y Hy; apply Hincl; now right| |reflexivity].
    intros Hin. exfalso. destruct Hsv as (l' & E & Hn); [cbn [map]; now right|]. injection E as E <-. contradiction.
  - injection E as <-. f_equal. transitivity (map (fun sv : saving => sv) l); [symmetry; apply map_id|]. apply map_ext_in. intros sv1 H1. destruct (suppressed_pair sup' sv1) eqn:E1; [|reflexivity].
    apply suppressed_pair_in in E1. destruct E1 as [E1|E1].
    + exfalso. destruct Hsv as (l' & E & Hn); [cbn [map]; right; rewrite E1; now apply in_map|]. injection E as E <-. apply Hn. rewrite E1. now apply in_map.
    + destruct sv1 as [[[s x] i] j]. assert (Hin : In (s, x, i, j) (sv0 :: t)) by (apply Hincl; now right). apply HR in Hin. destruct Hin as (_ & _ & -> & _).
      apply zeroed_key in E1. cbn [fst snd] in E1. cbn [zero_sv]. now rewrite E1.
Qed.
Lemma zero_ranking sup sv0 t c :
  ranking N D (zeroed sup) (sv0 :: t) -> zero_suppressed (key sv0 :: sup) (sv0 :: t) = Some c -> ranking N D (zeroed (key sv0 :: sup)) (sort_reverse c).
Proof.
  intros HR E. assert (HK := ranking_keys _ _ HR). apply zero_suppressed_in in E; [|exact HR]. set (l := sv0 :: t) in *. set (sup' := key sv0 :: sup) in *.
  assert (Ek : map key c = map key l).
  { subst c. rewrite map_map. apply map_ext. intros [[[s x] i] j]. now destruct (suppressed_pair _ _). }
  split.
  - apply sorted_strict; [apply sort_reverse_sorted|]. apply (NoDup_map_inv key). rewrite (Permutation_map key (sort_reverse_perm c)). now rewrite Ek.
  - intros s x i j. assert (P := sort_reverse_perm c). rewrite (Permutation_in' eq_refl P). subst c. rewrite in_map_iff.
    assert (Z1 : forall s0 x0, suppressed_pair sup' (s0, x0, i, j) = existsb (fun p => Nat.eqb (fst p) i && Nat.eqb (snd p) j) sup') by reflexivity.
    assert (Z2 : zeroed sup' i j = if existsb (fun p => Nat.eqb (fst p) i && Nat.eqb (snd p) j) sup' then 0 else zeroed sup i j).
    { unfold zeroed, sup'. cbn [existsb]. destruct (Nat.eqb (fst (key sv0)) i && Nat.eqb (snd (key sv0)) j); cbn [orb]; [reflexivity|]. now destruct (existsb _ sup). }
    rewrite Z2. split.
    + intros ([[[s0 x0] i0] j0] & E & Hin). apply HR in Hin. destruct Hin as (H1 & H2 & -> & ->).
      destruct (suppressed_pair sup' (zeroed sup i0 j0, - D i0 j0, i0, j0)) eqn:ES; cbn [zero_sv] in E; injection E as <- <- <- <-; rewrite <- (Z1 (zeroed sup i0 j0) (- D i0 j0)), ES; auto.
    + intros (H1 & H2 & -> & ->). exists (zeroed sup i j, - D i j, i, j). rewrite Z1. split; [|now apply HR].
      destruct (existsb _ sup'); reflexivity.
Qed.

Definition cache_ok (ls : list (list saving)) (sup : list (nat * nat)) (cache : list saving) : Prop :=
  cache = [] /\ sup = [] /\ ls = [] \/ exists sv t sup0, cache = sv :: t /\ sup = key sv :: sup0 /\ ranking N D (zeroed sup0) cache /\ (forall p, In p sup <-> In p (heads ls)).

Lemma suppression_step ls sup cache cache' sup' : cache_ok ls sup cache -> suppression_function N D sup cache = Some (cache', sup') ->
  ranking N D (suppressed_value D ls) cache' /\ cache_ok (ls ++ [cache']) sup' cache'.
Proof.
  intros HC E. unfold suppression_function in E.
  assert (G : exists c, (match cache with
     | [] => Some (fresh_cache N D sup)
     | sv :: _ => if suppressed_pair sup sv then option_map sort_reverse (zero_suppressed sup cache) else Some cache
     end) = Some c /\ (forall p, In p sup <-> In p (heads ls)) /\ ranking N D (zeroed sup) c).
  { destruct HC as [(-> & -> & ->)|(sv & t & sup0 & -> & -> & HR & Hh)].
    - eexists. split; [reflexivity|]. split; [reflexivity|]. exact (savings_list_ranking N D _ HN).
    - assert (ES : suppressed_pair (key sv :: sup0) sv = true) by (apply suppressed_pair_in; now left). rewrite ES in *.
      destruct (zero_suppressed (key sv :: sup0) (sv :: t)) as [c|] eqn:E0; cbn [option_map] in *; [|discriminate]. exists (sort_reverse c). split; [reflexivity|]. split; [exact Hh|]. now apply (zero_ranking sup0 sv t). }
  destruct G as (c & Ec & Hh & HR). rewrite Ec in E. destruct c as [|[[[s x] i] j] c]; [discriminate|]. injection E as <- <-. split.
  - apply (ranking_ext N D (zeroed sup)); [|exact HR]. intros a b. rewrite (zeroed_incl _ _ Hh). unfold zeroed, suppressed_value. now rewrite heads_first.
  - right. exists (s, x, i, j), c, sup. split; [reflexivity|]. split; [reflexivity|]. split; [exact HR|].
    intros p. unfold heads. rewrite flat_map_app, in_app_iff. change (flat_map _ ls) with (heads ls). cbn [flat_map app In]. specialize (Hh p). cbn [key fst snd]. tauto.
Qed.

Lemma suppression_rounds_loop n : forall ls sup cache (l : list (unit * list (list nat))) c,
  cache_ok ls sup cache -> (length sup + n <= length (all_pairs N))%nat -> (cache = [] \/ Permutation (map key cache) (all_pairs N)) ->
  suppression_loop ceps seps N D d C L mk n sup cache (sols D l) = Some c ->
  exists new l', length new = n /\ c = sols D (l ++ l') /\
    (forall k q, nth_error new k = Some q -> ranking N D (suppressed_value D (ls ++ firstn k new)) q) /\
    Forall2 (fun q x => PS q = Some (Some (encode (snd x))) /\ Forall customers_only (snd x)) new l'.
Proof.
  induction n as [|n IH]; intros ls sup cache l c HC HL HP E.
  - cbn in E. injection E as <-. exists [], []. rewrite app_nil_r. split; [reflexivity|]. split; [reflexivity|]. split; [intros [|k] q X; discriminate X|constructor].
  - cbn [suppression_loop] in E. destruct (suppression_function_ok N D sup cache) as (c' & p & E1 & HP'); [lia|exact HP|]. rewrite E1 in E.
    destruct (suppression_step ls sup cache c' (p :: sup) HC E1) as (HR & HC').
    destruct (ps_sol_ok ceps seps N D d C L mk HN Hsym Halone c' (keys_valid N HN c' HP')) as (rs & Es & Hrs). rewrite Es in E.
    replace (sols D l ++ [candidate D tt (encode rs)]) with (sols D (l ++ [(tt, rs)])) in E by (unfold sols; now rewrite map_app).
    destruct (IH (ls ++ [c']) (p :: sup) c' (l ++ [(tt, rs)]) c HC') as (new & l' & A1 & A2 & A3 & A4); [cbn [length]; lia|now right|exact E|].
    exists (c' :: new), ((tt, rs) :: l'). split; [cbn [length]; lia|]. split; [rewrite A2, <- app_assoc; reflexivity|]. split.
    + intros [|k] q X; cbn [nth_error firstn] in *.
      * injection X as <-. now rewrite app_nil_r.
      * specialize (A3 k q X). now rewrite <- app_assoc in A3.
    + constructor; [|exact A4]. cbn [snd]. split; [|now apply okr_customers in Hrs].
      unfold ps_sol in Es. destruct (PS c') as [[?|]|]; congruence.
Qed.

Lemma suppression_exact Lp : (0 < suppression_count N Lp)%nat ->
  exists lists rs, length lists = suppression_count N Lp /\
    (forall k l, nth_error lists k = Some l -> ranking N D (suppressed_value D (firstn k lists)) l) /\
    suppression_savings_init ceps seps N D d C L mk Lp = Some (Some (encode rs)) /\ Forall customers_only rs /\
    (exists l, In l lists /\ PS l = Some (Some (encode rs))) /\
    forall l, In l lists -> exists rs', PS l = Some (Some (encode rs')) /\ Forall customers_only rs' /\ not_beaten mk D rs rs'.
Proof.
  intros Hpos. destruct (suppression_loop_ok ceps seps N D d C L mk HN Hsym Halone (suppression_count N Lp) [] [] []) as (l0 & E & _ & _); [cbn; apply count_bound|now left|].
  destruct (suppression_rounds_loop (suppression_count N Lp) [] [] [] [] (sols D ([] ++ l0)) (or_introl (conj eq_refl (conj eq_refl eq_refl)))) as (new & l' & A1 & A2 & A3 & A4); [cbn; apply count_bound|now left|exact E|].
  assert (HF : Forall (fun x : unit * list (list nat) => Forall customers_only (snd x)) l').
  { clear - A4. induction A4 as [|q x new l (_ & H) _ IH]; constructor; assumption. }
  assert (Hne : l' <> []) by (intros ->; inversion A4; subst; cbn in A1; lia).
  destruct (best_sols mk D l' Hne HF) as ([] & rs & Hin & Eb & Hb).
  exists new, rs. split; [exact A1|]. split; [exact A3|]. split.
  - unfold suppression_savings_init. change (@nil (unit * list nat * Z * nat)) with (sols D (@nil (unit * list (list nat)))). rewrite E, A2. cbn [app]. rewrite Eb. reflexivity.
  - rewrite Forall_forall in HF. split; [exact (HF _ Hin)|]. split.
    + clear - A4 Hin. induction A4 as [|q x new l (H & _) _ IH]; [easy|]. destruct Hin as [->|Hin]; [exists q; split; [now left|exact H]|].
      destruct (IH Hin) as (q' & B1 & B2). exists q'. split; [now right|exact B2].
    + intros q Hq. assert (X : exists rs', PS q = Some (Some (encode rs')) /\ In (tt, rs') l').
      { clear - A4 Hq. induction A4 as [|q1 [[] r] new l (H & _) _ IH]; [easy|]. destruct Hq as [->|Hq]; [exists r; split; [exact H|now left]|].
        destruct (IH Hq) as (q' & B1 & B2). exists q'. split; [exact B1|now right]. }
      destruct X as (rs' & X1 & X2). exists rs'. split; [exact X1|]. split; [exact (HF _ X2)|]. now apply (Hb tt).
Qed.
End Run.

(** ** The forms of the property file *)
Lemma in_m1 g f : In (g, f) m1_parameters <-> 8 <= g <= 20 /\ 0 <= f <= 10.
Proof.
  unfold m1_parameters. rewrite in_flat_map. split.
  - intros (a & Ha & H). apply in_map_iff in H. destruct H as (b & E & Hb). injection E as <- <-. unfold range in *. apply in_seq in Ha, Hb. lia.
  - intros (Hg & Hf). exists (Z.to_nat g). split; [apply in_seq; lia|]. apply in_map_iff. exists (Z.to_nat f). split; [f_equal; lia|apply in_seq; lia].
Qed.
Lemma in_m4 g f : In (g, f) m4_parameters <-> m4_start g f.
Proof.
  unfold m4_parameters, m4_start. cbn [In]. split.
  - intros [E|[E|[E|[E|[]]]]]; injection E as <- <-; tauto.
  - intros [(-> & ->)|[(-> & ->)|[(-> & ->)|(-> & ->)]]]; tauto.
Qed.
Lemma in_finetune g f g' f' : In (g', f') (m4_finetune (g, f)) <-> next_to g f g' f'.
Proof.
  unfold m4_finetune, next_to. cbn [In]. split.
  - intros [E|[E|[E|[E|[]]]]]; injection E as <- <-; lia.
  - intros H. assert (X : g' = g - 1 /\ f' = f \/ g' = g + 1 /\ f' = f \/ g' = g /\ f' = f - 1 \/ g' = g /\ f' = f + 1) by lia.
    destruct X as [(-> & ->)|[(-> & ->)|[(-> & ->)|(-> & ->)]]]; tauto.
Qed.

Lemma paessens_m1_best ceps seps N D d C L mk do3 :
  (2 <= N)%nat -> symmetric D -> served_alone N D d C L ceps seps -> D 0%nat 0%nat = 0 -> d 0%nat = 0 -> 0 <= seps ->
  exists rs fuel0, Forall customers_only rs /\
    (forall fuel, (fuel0 <= fuel)%nat -> paessens_savings_init seps ceps N D d C L mk M1 do3 fuel = Some (Some (encode rs))) /\
    (exists g f, (8 <= g <= 20 /\ 0 <= f <= 10) /\
       forall fuel, (fuel0 <= fuel)%nat -> paessens_savings_init seps ceps N D d C L mk (Given [(g, f)]) do3 fuel = Some (Some (encode rs))) /\
    forall g f, 8 <= g <= 20 -> 0 <= f <= 10 -> exists rs', Forall customers_only rs' /\
      (forall fuel, (fuel0 <= fuel)%nat -> paessens_savings_init seps ceps N D d C L mk (Given [(g, f)]) do3 fuel = Some (Some (encode rs'))) /\
      not_beaten mk D rs rs'.
Proof.
  intros HN Hs Ha H0 Hd He. destruct (paessens_all ceps seps N D d C L mk HN Hs Ha H0 Hd He M1 do3) as (gfs & rs & f0 & _ & E & A1 & A2 & ((g & f) & A3 & A4) & A5 & _); [discriminate|].
  rewrite E in * by discriminate. cbn [base_parameters] in *. exists rs, f0. split; [exact A2|]. split; [exact A1|]. split.
  - exists g, f. split; [now apply in_m1|exact A4].
  - intros g1 f1 Hg Hf. destruct (A5 (g1, f1)) as (rs' & B1 & B2 & B3); [now apply in_m1|]. exists rs'. auto.
Qed.
Lemma paessens_m4_best ceps seps N D d C L mk do3 :
  (2 <= N)%nat -> symmetric D -> served_alone N D d C L ceps seps -> D 0%nat 0%nat = 0 -> d 0%nat = 0 -> 0 <= seps ->
  exists rs g f rb fuel0, Forall customers_only rs /\ Forall customers_only rb /\ m4_start g f /\
    (forall fuel, (fuel0 <= fuel)%nat ->
       paessens_savings_init seps ceps N D d C L mk M4 do3 fuel = Some (Some (encode rs)) /\
       paessens_savings_init seps ceps N D d C L mk (Given [(g, f)]) do3 fuel = Some (Some (encode rb))) /\
    (exists g' f', (m4_start g' f' \/ next_to g f g' f') /\
       forall fuel, (fuel0 <= fuel)%nat -> paessens_savings_init seps ceps N D d C L mk (Given [(g', f')]) do3 fuel = Some (Some (encode rs))) /\
    (forall g' f', m4_start g' f' \/ next_to g f g' f' -> exists rs', Forall customers_only rs' /\
      (forall fuel, (fuel0 <= fuel)%nat -> paessens_savings_init seps ceps N D d C L mk (Given [(g', f')]) do3 fuel = Some (Some (encode rs'))) /\
      not_beaten mk D rs rs' /\ (m4_start g' f' -> not_beaten mk D rb rs')).
Proof.
  intros HN Hs Ha H0 Hd He. destruct (paessens_all ceps seps N D d C L mk HN Hs Ha H0 Hd He M4 do3) as (gfs & rs & f0 & _ & _ & A1 & A2 & (gf & A3 & A4) & A5 & A6); [discriminate|].
  destruct (A6 eq_refl) as ((g & f) & rb & B1 & B2 & B3 & B4 & B5). subst gfs.
  assert (HI : forall g' f', In (g', f') (m4_parameters ++ m4_finetune (g, f)) <-> m4_start g' f' \/ next_to g f g' f').
  { intros g' f'. rewrite in_app_iff, in_m4, in_finetune. reflexivity. }
  exists rs, g, f, rb, f0. split; [exact A2|]. split; [exact B4|]. split; [now apply in_m4|]. split; [intros fuel Hf; split; [now apply A1|now apply B3]|]. split.
  - destruct gf as (g' & f'). exists g', f'. split; [now apply HI|exact A4].
  - intros g' f' H. destruct (A5 (g', f')) as (rs' & C1 & C2 & C3); [now apply HI|]. exists rs'. split; [exact C2|]. split; [exact C1|]. split; [exact C3|].
    intros Hm. destruct (B5 (g', f')) as (rs2 & D1 & D2 & D3); [now apply in_m4|]. specialize (C1 f0 (le_n _)). specialize (D1 f0 (le_n _)).
    rewrite C1 in D1. injection D1 as D1. assert (X : candidate D tt (encode rs') = candidate D tt (encode rs2)) by (unfold encode; now rewrite D1).
    rewrite !candidate_encode in X by assumption. injection X as _ X1 X2. unfold not_beaten in *. now rewrite X1, X2.
Qed.
Lemma paessens_given_best ceps seps N D d C L mk do3 ps :
  (2 <= N)%nat -> symmetric D -> served_alone N D d C L ceps seps -> D 0%nat 0%nat = 0 -> d 0%nat = 0 -> 0 <= seps -> ps <> [] ->
  exists rs fuel0, Forall customers_only rs /\
    (forall fuel, (fuel0 <= fuel)%nat -> paessens_savings_init seps ceps N D d C L mk (Given ps) do3 fuel = Some (Some (encode rs))) /\
    (exists gf, In gf ps /\ forall fuel, (fuel0 <= fuel)%nat -> paessens_savings_init seps ceps N D d C L mk (Given [gf]) do3 fuel = Some (Some (encode rs))) /\
    forall gf, In gf ps -> exists rs', Forall customers_only rs' /\
      (forall fuel, (fuel0 <= fuel)%nat -> paessens_savings_init seps ceps N D d C L mk (Given [gf]) do3 fuel = Some (Some (encode rs'))) /\
      not_beaten mk D rs rs'.
Proof.
  intros HN Hs Ha H0 Hd He Hp. destruct (paessens_all ceps seps N D d C L mk HN Hs Ha H0 Hd He (Given ps) do3 Hp) as (gfs & rs & f0 & _ & E & A1 & A2 & A3 & A5 & _).
  rewrite E in * by discriminate. cbn [base_parameters] in *. exists rs, f0. split; [exact A2|]. split; [exact A1|]. split; [exact A3|].
  intros gf Hg. destruct (A5 gf Hg) as (rs' & B1 & B2 & B3). exists rs'. auto.
Qed.
Lemma suppression_rounds ceps seps N D d C L mk Lp :
  (3 <= N)%nat -> symmetric D -> served_alone N D d C L ceps seps -> Lp <> Some 0%nat ->
  exists lists rs,
    length lists = Nat.min (match Lp with None => (N - 1) / 7 + 5 | Some l => l end) ((N - 1) * (N - 2) / 2) /\
    (forall k l, nth_error lists k = Some l -> ranking N D (suppressed_value D (firstn k lists)) l) /\
    suppression_savings_init ceps seps N D d C L mk Lp = Some (Some (encode rs)) /\ Forall customers_only rs /\
    (exists l, In l lists /\ parallel_savings_init ceps seps N D d C L mk l = Some (Some (encode rs))) /\
    forall l, In l lists -> exists rs', parallel_savings_init ceps seps N D d C L mk l = Some (Some (encode rs')) /\ Forall customers_only rs' /\ not_beaten mk D rs rs'.
Proof.
  intros HN Hs Ha HL. destruct (suppression_exact ceps seps N D d C L mk ltac:(lia) Hs Ha Lp (suppression_count_pos N Lp HN HL)) as (ls & rs & A & B).
  exists ls, rs. split; [|exact B]. rewrite A. unfold suppression_count. do 2 f_equal. nia.
Qed.
