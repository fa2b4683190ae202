(** * Two phase heuristic: the solution returned and the ones handed over *)
From Verif Require Import Spec Spec_inter Spec_savings Spec_rfcs Spec_tyagi Spec_driver Spec_cmt PyBase M_util M_psavings M_intra M_rfcs M_cmt
  P_base P_util P_cvrp P_driver P_psavings P_nn2 P_ssavings P_savfam P_tyagi P_tyagi3 P_tyagi4 P_cli P_mj2 P_cmt P_cmt2 M_cmt Spec.
Require Import ZifyBool ZifyNat Lia.

Definition rate (D : matrix) (rs : list (list nat)) : rated := Some (encode rs, routes_cost D rs, length rs).
Lemma better_beats mk D a b : better_of mk (rate D a) (rate D b) = true <-> beats mk (routes_cost D b) (length b) (routes_cost D a) (length a).
Proof.
  unfold better_of, rate, rated_f, rated_K, beats. cbn [option_map fst snd is_better_sol]. destruct mk; lia.
Qed.
Lemma better_none mk D b : better_of mk None (rate D b) = true. Proof. reflexivity. Qed.
Lemma not_better mk r : better_of mk r None = false. Proof. reflexivity. Qed.
Lemma nb_refl mk D a : not_beaten mk D a a. Proof. unfold not_beaten, beats. destruct mk; lia. Qed.
Lemma nb_trans mk D a b c : not_beaten mk D a b -> not_beaten mk D b c -> not_beaten mk D a c.
Proof. unfold not_beaten, beats. destruct mk; lia. Qed.
Lemma nb_of mk D a b : better_of mk (rate D a) (rate D b) = true -> not_beaten mk D b a.
Proof. rewrite better_beats. unfold not_beaten, beats. destruct mk; lia. Qed.
Lemma nb_not mk D a b : better_of mk (rate D a) (rate D b) = false -> not_beaten mk D a b.
Proof. intros H X. apply better_beats in X. congruence. Qed.
Lemma nb_beats_nb mk D a b c : not_beaten mk D a b -> not_beaten mk D b c -> not_beaten mk D a c.
Proof. apply nb_trans. Qed.

(** The value picked is one of the candidates and beaten by none. *)
Lemma pick_ok mk D (B : option (list (list nat))) a (X : option (list (list nat))) :
  exists z, pick mk (match B with Some b => rate D b | None => None end) (rate D a) (match X with Some b => rate D b | None => None end) = rate D z /\
    (B = Some z \/ z = a \/ X = Some z) /\ (forall b, B = Some b -> not_beaten mk D z b) /\ not_beaten mk D z a /\ (forall x, X = Some x -> not_beaten mk D z x).
Proof.
  unfold pick. cbv zeta. destruct X as [x|].
  - destruct (better_of mk (rate D x) (rate D a)) eqn:E1; destruct B as [b|].
    + destruct (better_of mk (rate D b) (rate D a)) eqn:E2.
      * exists a. split; [reflexivity|split; [auto|split; [|split]]]; [intros q E; injection E as <-; now apply nb_of|apply nb_refl|intros q E; injection E as <-; now apply nb_of].
      * exists b. split; [reflexivity|split; [auto|split; [|split]]]; [intros q E; injection E as <-; apply nb_refl|now apply nb_not|intros q E; injection E as <-; eapply nb_trans; [now apply nb_not in E2; exact E2|now apply nb_of]].
    + rewrite better_none. exists a. split; [reflexivity|split; [auto|split; [discriminate|split]]]; [apply nb_refl|intros q E; injection E as <-; now apply nb_of].
    + destruct (better_of mk (rate D b) (rate D x)) eqn:E2.
      * exists x. split; [reflexivity|split; [auto|split; [|split]]]; [intros q E; injection E as <-; now apply nb_of|now apply nb_not|intros q E; injection E as <-; apply nb_refl].
      * exists b. split; [reflexivity|split; [auto|split; [|split]]]; [intros q E; injection E as <-; apply nb_refl|eapply nb_trans; [apply nb_not; exact E2|now apply nb_not]|intros q E; injection E as <-; now apply nb_not].
    + rewrite better_none. exists x. split; [reflexivity|split; [auto|split; [discriminate|split]]]; [now apply nb_not|intros q E; injection E as <-; apply nb_refl].
  - rewrite (better_none mk D a : better_of mk None (rate D a) = true). destruct B as [b|].
    + destruct (better_of mk (rate D b) (rate D a)) eqn:E2.
      * exists a. split; [reflexivity|split; [auto|split; [|split]]]; [intros q E; injection E as <-; now apply nb_of|apply nb_refl|discriminate].
      * exists b. split; [reflexivity|split; [auto|split; [|split]]]; [intros q E; injection E as <-; apply nb_refl|now apply nb_not|discriminate].
    + rewrite better_none. exists a. split; [reflexivity|split; [auto|split; [discriminate|split]]]; [apply nb_refl|discriminate].
Qed.

Lemma serves_customers N D d C L ceps seps rs : serves N D d C L ceps seps rs -> Forall customers_only rs.
Proof.
  intros (H & _). apply Forall_forall. intros r Hr. unfold customers_only. try apply Forall_forall. intros x Hx.
  assert (X : In x (seq 1 (N - 1))) by (apply (Permutation_in _ H), in_concat; eauto). apply in_seq in X. lia.
Qed.

Section Init.
Variables (ceps seps : Z) (N : nat) (D : matrix) (d : demands) (C L : limit) (f : tsp).
Hypothesis Hf : solver N D f.
Hypothesis HfL : limit_set L -> shortens N D f.
Hypothesis Halone : served_alone N D d C L ceps seps.

Notation feas := (feasible D d C L ceps seps).
Notation cut := (cut_short N D d C L ceps seps).

Lemma single_routes_ok un : customers_in N un -> Forall (good ceps seps D d C L) (singles un).
Proof using Halone.
  intros H. apply Forall_forall. intros r Hr. apply in_map_iff in Hr as (i & <- & Hi). split; [discriminate|]. apply Halone. now apply H.
Qed.
Lemma concat_singles un : concat (singles un) = un.
Proof. unfold singles. induction un; cbn; congruence. Qed.
Lemma keep_all sol un : (forall x, In x un -> ~ In x sol) -> filter (fun n => negb (existsb (Nat.eqb n) sol)) un = un.
Proof.
  induction un as [|x un IH]; intros H; [reflexivity|]. cbn [filter]. destruct (existsb (Nat.eqb x) sol) eqn:E.
  - apply existsb_exists in E as (y & Hy & Ey). apply Nat.eqb_eq in Ey as ->. exfalso. apply (H y); [now left|exact Hy].
  - cbn [negb]. f_equal. apply IH. intros y Hy. apply H. now right.
Qed.
Lemma encode_open rs rs2 : open_sol rs ++ encode rs2 = encode (rs ++ rs2).
Proof. now rewrite <- !open_sol_encode, open_sol_app, app_assoc. Qed.
Lemma sub_in l1 l2 l3 : Permutation (l1 ++ l2 ++ l3) (seq 1 (N - 1)) -> customers_in N l3 /\ (forall x, In x l3 -> ~ In x l1) /\ NoDup (l1 ++ l3) /\ customers_in N (l1 ++ l3).
Proof.
  intros H. assert (Hn : NoDup (l1 ++ l2 ++ l3)) by (apply (Permutation_NoDup (Permutation_sym H)), seq_NoDup).
  assert (Hc : customers_in N (l1 ++ l2 ++ l3)) by (intros j Hj; apply (Permutation_in _ H) in Hj; apply in_seq in Hj; lia).
  split; [intros j Hj; apply Hc, in_or_app; right; apply in_or_app; now right|].
  assert (Hn2 : NoDup (l2 ++ l1 ++ l3)). { apply (Permutation_NoDup (l := l1 ++ l2 ++ l3)); [|exact Hn]. rewrite !app_assoc. apply Permutation_app_tail, Permutation_app_comm. }
  apply app_nodup_r in Hn2. split; [|split; [exact Hn2|]].
  - intros x Hx X. clear - Hn2 Hx X. induction l1 as [|a l1 IH]; [destruct X|]. cbn in Hn2. apply NoDup_cons_iff in Hn2 as (A & B). destruct X as [->|X]; [apply A, in_or_app; now right|auto].
  - intros j Hj. apply Hc. apply in_app_or in Hj as [Hj|Hj]; apply in_or_app; [now left|right; apply in_or_app; now right].
Qed.
Lemma good_split rs : Forall (good ceps seps D d C L) rs -> Forall (fun r => r <> []) rs /\ Forall feas rs.
Proof. intros H. split; eapply Forall_impl; try exact H; now intros r (A & B). Qed.

Lemma p1_interrupt_ok p : halfway ceps seps N D d C L (fst p) (snd p) -> exists rs, p1_interrupted p = encode rs /\ cut rs /\ distinct_customers rs.
Proof using Halone.
  intros (rs & b & E & Hg & Hp & Hb). destruct (sub_in _ _ _ Hp) as (Hc & Hd & Hn & Hci). exists (rs ++ singles (snd p)).
  assert (EC : concat (rs ++ singles (snd p)) = concat rs ++ snd p) by now rewrite concat_app, concat_singles.
  split; [|split].
  - unfold p1_interrupted. rewrite E, keep_all, routes2sol_gen_singles; [apply encode_open|intros n Hn'; apply Hc in Hn'; lia|].
    intros x Hx. rewrite open_sol_in; [now apply Hd|]. apply Hc in Hx. lia.
  - destruct (good_split (rs ++ singles (snd p))) as (G1 & G2); [apply Forall_app; split; [exact Hg|now apply single_routes_ok]|].
    split; [exact G1|split; [exact G2|]]. exists b, [], b. split; [rewrite EC, <- app_assoc, (Permutation_app_comm (snd p) b); exact Hp|].
    split; [now left|split; [reflexivity|]]. destruct Hb; auto.
  - split; rewrite EC; [exact Hn|]. unfold customers_only. try apply Forall_forall. intros x Hx. apply Hci in Hx. lia.
Qed.
Lemma In_perm (r : list nat) : forall rs rs', Forall2 (@Permutation nat) rs' rs -> In r ([] :: rs) -> exists r', In r' ([] :: rs') /\ Permutation r' r.
Proof.
  intros rs rs' H [<-|X]; [exists []; split; [now left|reflexivity]|]. induction H as [|a b la lb P _ IH]; [destruct X|].
  destruct X as [->|X]; [exists a; split; [right; now left|exact P]|]. destruct (IH X) as (r' & [<-|Y] & Z); [exists []; split; [now left|exact Z]|exists r'; split; [right; now right|exact Z]].
Qed.
Lemma p2_interrupt_ok p : p2_halfway ceps seps N D d C L p -> exists rs, p2_interrupted f p = encode rs /\ cut rs /\ distinct_customers rs.
Proof using Hf HfL Halone.
  intros (rs0 & b & r & q & H1 & H2 & H3 & H4 & H5). destruct (closed_ok _ _ _ _ _ _ _ _ Hf HfL _ _ H1) as (rs & C1 & C2 & C3 & C4).
  pose proof (concat_perm _ _ C2) as PC. assert (Hp : Permutation (concat rs ++ b ++ snd p) (seq 1 (N - 1))) by now rewrite PC.
  destruct (sub_in _ _ _ Hp) as (Hc & Hd & Hn & Hci). exists (rs ++ singles (snd p)).
  assert (EC : concat (rs ++ singles (snd p)) = concat rs ++ snd p) by now rewrite concat_app, concat_singles.
  split; [|split].
  - unfold p2_interrupted. rewrite C4, C1. cbn [fst]. rewrite keep_all, routes2sol_gen_singles; [apply encode_open|intros n Hn'; apply Hc in Hn'; lia|].
    intros x Hx. rewrite <- open_sol_encode, in_app_iff. specialize (Hc x Hx). rewrite open_sol_in by lia. intros [X|[X|[]]]; [now apply (Hd x)|lia].
  - destruct (good_split (rs ++ singles (snd p))) as (G1 & G2); [apply Forall_app; split; [exact C3|now apply single_routes_ok]|].
    split; [exact G1|split; [exact G2|]]. destruct (In_perm r _ _ C2 H3) as (r' & R1 & R2). exists b, r', q.
    split; [rewrite EC, <- app_assoc, (Permutation_app_comm (snd p) b); exact Hp|]. split; [|split; [now rewrite R2|exact H5]].
    destruct R1 as [R1|R1]; [now left|right; apply in_or_app; now left].
  - split; rewrite EC; [exact Hn|]. unfold customers_only. try apply Forall_forall. intros x Hx. apply Hci in Hx. lia.
Qed.
Lemma dc_each rs : distinct_customers rs -> Forall customers_only rs.
Proof.
  intros (_ & H). apply Forall_forall. intros r Hr. unfold customers_only in *. try rewrite Forall_forall in H. try apply Forall_forall. intros x Hx. apply H, in_concat. eauto.
Qed.
Lemma rated_interrupted_ok rs : cut rs -> distinct_customers rs -> rated_interrupted D (encode rs) = rate D rs.
Proof.
  intros (H & _) Hd. unfold rated_interrupted. cbv zeta. rewrite (without_empty rs Hd), (filter_id rs H). unfold rate.
  rewrite (count_encode rs (dc_each rs Hd)). replace (S (length rs) - 1)%nat with (length rs) by lia. now rewrite objf_path, path_cost_encode.
Qed.
Lemma serves_cut rs : serves N D d C L ceps seps rs -> cut rs.
Proof.
  intros (A & B & E). split; [exact B|split; [exact E|]]. exists [], [], []. rewrite app_nil_r. split; [exact A|split; [now left|split; [reflexivity|now left]]].
Qed.

Variables (minimize_K : bool) (lam mu : Z * Z) (m : seeding) (most : bool) (assoc : association).
Variables (order1 order2 : nat -> list nat) (shuffled : nat -> nat -> nat -> list nat) (argp : nat -> list Z -> list nat).
Hypothesis Ho1 : forall t, Permutation (order1 t) (seq 1 (N - 1)).
Hypothesis Ho2 : forall t, Permutation (order2 t) (seq 1 (N - 1)).
Hypothesis Hsh : forall t p K, Permutation (shuffled t p K) (seq 0 K).

Notation a1 := (attempt1 ceps seps N D d C L f lam m order1).
Notation a2 := (attempt2 ceps seps N D d C L f mu most assoc order2 shuffled argp).
Notation runs := (attempts ceps seps N D d C L f minimize_K lam mu m most assoc order1 order2 shuffled argp).

Lemma attempt1_ok random t : (exists rs, rated1 (a1 random t) = rate D rs /\ p1_sol (a1 random t) ++ [0%nat] = encode rs /\
    serves N D d C L ceps seps rs /\ Forall2 (fun s r => In s r) (p1_seeds (a1 random t)) rs) /\
  Forall (fun p => halfway ceps seps N D d C L (fst p) (snd p)) (p1_points (a1 random t)).
Proof using Hf HfL Halone Ho1.
  unfold attempt1. assert (P : Permutation (if random then order1 t else range 1 N) (seq 1 (N - 1))) by (destruct random; [apply Ho1|reflexivity]).
  destruct (phase_one_ok ceps seps N D d C L f Hf HfL Halone m lam _ P) as ((rs & H1 & H2 & H3 & H4) & H5). split; [|exact H5].
  exists rs. unfold rated1, rate. rewrite H1, H2, open_sol_encode, (Forall2_length _ _ _ H4). auto.
Qed.
Lemma seeds_in rs : forall seeds, serves N D d C L ceps seps rs -> Forall2 (fun s r => In s r) seeds rs -> NoDup seeds /\ customers_in N seeds /\ (seeds = [] -> (N <= 1)%nat).
Proof.
  intros seeds (H & _ & _) HF. assert (Hn : NoDup (concat rs)) by (apply (Permutation_NoDup (Permutation_sym H)), seq_NoDup).
  split; [|split].
  - clear H. induction HF as [|s r seeds rs Hs HF IH]; [constructor|]. cbn [concat] in Hn. constructor; [|apply IH; now apply app_nodup_r in Hn].
    intros X. assert (Y : In s (concat rs)). { clear - HF X. induction HF; [destruct X|]. destruct X as [->|X]; cbn [concat]; apply in_or_app; auto. }
    clear - Hs Hn Y. induction r as [|a r IH]; [destruct Hs|]. cbn in Hn. apply NoDup_cons_iff in Hn as (A & B). destruct Hs as [->|Hs]; [apply A, in_or_app; now right|auto].
  - intros j Hj. assert (Y : In j (concat rs)). { clear - HF Hj. induction HF; [destruct Hj|]. destruct Hj as [->|X]; cbn [concat]; apply in_or_app; auto. }
    apply (Permutation_in _ H) in Y. apply in_seq in Y. lia.
  - intros ->. inversion HF; subst. unfold covers in H. cbn in H. apply Permutation_nil in H. destruct N as [|[|n]]; [lia|lia|discriminate].
Qed.
Lemma attempt2_ok random t : exists s2 pts fuel0, (forall fuel, (fuel0 <= fuel)%nat -> a2 random t (p1_seeds (a1 random t)) fuel = Some (s2, pts)) /\
  Forall (p2_halfway ceps seps N D d C L) pts /\
  exists X, rated2 (p1_seeds (a1 random t)) s2 = match X with Some b => rate D b | None => None end /\
    match s2, X with None, None => True | Some (sol, c), Some rs => sol = encode rs /\ serves N D d C L ceps seps rs /\ Forall2 (fun s r => In s r) (p1_seeds (a1 random t)) rs | _, _ => False end.
Proof using Hf HfL Halone Ho1 Ho2 Hsh.
  destruct (attempt1_ok random t) as ((rs & _ & _ & H3 & H4) & _). destruct (seeds_in rs _ H3 H4) as (S1 & S2 & S3).
  unfold attempt2. set (seeds := p1_seeds (a1 random t)) in *.
  assert (P : Permutation (if random then order2 t else range 1 N) (seq 1 (N - 1))) by (destruct random; [apply Ho2|reflexivity]).
  destruct (phase_two_ok ceps seps N D d C L f Hf HfL Halone mu seeds most (match assoc with Once => None | Times n => Some n | TimesK => Some (length seeds) end)
     (fun pass => if random then shuffled t pass (length seeds) else range 0 (length seeds)) argp) with (order := if random then order2 t else range 1 N) as (s2 & pts & fuel0 & R1 & R2 & R3); try assumption.
  { intros pass. unfold range. rewrite Nat.sub_0_r. destruct random; [apply Hsh|reflexivity]. }
  exists s2, pts, fuel0. split; [exact R1|split; [exact R2|]]. destruct s2 as [[sol c]|]; [|exists None; split; [reflexivity|exact I]].
  destruct R3 as (rs2 & -> & -> & X1 & X2). exists (Some rs2). split; [|auto]. unfold rated2, rate. cbn [option_map fst snd]. now rewrite (Forall2_length _ _ _ X2).
Qed.

(** A solution found in attempt t *)
Definition found (random : bool) (t : nat) (rs : list (list nat)) : Prop :=
  serves N D d C L ceps seps rs /\ found_by (a1 random t) (a2 random t (p1_seeds (a1 random t))) rs.

Lemma pick_cut (B : option (list (list nat))) a x : (forall b, B = Some b -> cut b) -> cut a -> (forall b, x = Some b -> cut b) ->
  exists z, pick minimize_K (match B with Some b => rate D b | None => None end) (rate D a) (match x with Some b => rate D b | None => None end) = rate D z /\ cut z.
Proof.
  intros H1 H2 H3. destruct (pick_ok minimize_K D B a x) as (z & E & Hz & _). exists z. split; [exact E|]. destruct Hz as [Hz|[->|Hz]]; auto.
Qed.

Lemma attempts_ok random : forall rr t (B : option (list (list nat))), (0 < rr)%nat ->
  (forall b, B = Some b -> serves N D d C L ceps seps b) ->
  exists rs ints fuel0,
    (forall fuel, (fuel0 <= fuel)%nat -> runs random rr t fuel (match B with Some b => rate D b | None => None end) = Some (rate D rs, ints)) /\
    Forall (fun r => r = None /\ B = None \/ exists q, r = rate D q /\ cut q) ints /\
    serves N D d C L ceps seps rs /\
    (B = Some rs \/ exists t', (t <= t' < t + rr)%nat /\ found random t' rs) /\
    (forall b, B = Some b -> not_beaten minimize_K D rs b) /\
    (forall t' rs', (t <= t' < t + (if random then rr else 1))%nat -> (forall u, (t <= u < t')%nat -> gives_up (a2 random u (p1_seeds (a1 random u)))) -> found random t' rs' -> not_beaten minimize_K D rs rs').
Proof using Hf HfL Halone Ho1 Ho2 Hsh.
  induction rr as [|rr IH]; intros t B Hrr HB; [lia|]. clear Hrr.
  destruct (attempt1_ok random t) as ((rs1 & A1 & A2 & A3 & A4) & A5). destruct (attempt2_ok random t) as (s2 & pts & fuel0 & B1 & B2 & X & B3 & B4).
  destruct (pick_ok minimize_K D B rs1 X) as (z & Z1 & Z2 & Z3 & Z4 & Z5). rewrite <- A1, <- B3 in Z1.
  assert (HX : forall x, X = Some x -> serves N D d C L ceps seps x /\ found random t x).
  { intros x ->. destruct s2 as [[sol c]|]; [|destruct B4]. destruct B4 as (-> & Y1 & _). split; [exact Y1|]. split; [exact Y1|]. right. exists c, pts, fuel0. exact B1. }
  assert (Hz : serves N D d C L ceps seps z) by (destruct Z2 as [Z2|[->|Z2]]; [now apply HB|exact A3|now apply HX]).
  assert (Hfz : B = Some z \/ found random t z) by (destruct Z2 as [Z2|[->|Z2]]; [now left|right; split; [exact A3|now left]|right; now apply HX]).
  (* a solution found in this attempt does not beat z *)
  assert (Hnow : forall rs', found random t rs' -> not_beaten minimize_K D z rs').
  { intros rs' (F1 & F2). pose proof (serves_customers _ _ _ _ _ _ _ _ F1) as FC. destruct F2 as [F2|(c & pts' & fuel1 & F2)].
    - rewrite A2 in F2. apply encode_inj in F2; [subst rs'; exact Z4|now apply (serves_customers _ _ _ _ _ _ _ _ A3)|exact FC].
    - specialize (F2 (fuel0 + fuel1)%nat ltac:(lia)). rewrite B1 in F2 by lia. injection F2 as -> _. destruct X as [x|]; [|destruct B4].
      destruct B4 as (E & Y1 & _). apply encode_inj in E; [subst x; now apply Z5|exact FC|now apply (serves_customers _ _ _ _ _ _ _ _ Y1)]. }
  assert (Hi1 : Forall (fun r => r = None /\ B = None \/ exists q, r = rate D q /\ cut q)
     ((match B with Some b => rate D b | None => None end) :: map (fun p => pick minimize_K (match B with Some b => rate D b | None => None end) (rated_interrupted D (p1_interrupted p)) None) (p1_points (a1 random t)))).
  { constructor; [destruct B as [b|]; [right; exists b; split; [reflexivity|apply serves_cut; now apply HB]|now left]|].
    apply Forall_forall. intros r Hr. apply in_map_iff in Hr as (p & <- & Hp). rewrite Forall_forall in A5. destruct (p1_interrupt_ok p (A5 p Hp)) as (q & Q1 & Q2 & Q3).
    rewrite Q1, rated_interrupted_ok by assumption. right. apply (pick_cut B q None); [intros b Hb; apply serves_cut; now apply HB|exact Q2|discriminate]. }
  assert (Hi2 : Forall (fun r => r = None /\ B = None \/ exists q, r = rate D q /\ cut q)
     (pick minimize_K (match B with Some b => rate D b | None => None end) (rated1 (a1 random t)) None ::
      map (fun p => pick minimize_K (match B with Some b => rate D b | None => None end) (rated1 (a1 random t)) (rated_interrupted D (p2_interrupted f p))) pts)).
  { rewrite A1. constructor; [right; apply (pick_cut B rs1 None); [intros b Hb; apply serves_cut; now apply HB|now apply serves_cut|discriminate]|].
    apply Forall_forall. intros r Hr. apply in_map_iff in Hr as (p & <- & Hp). rewrite Forall_forall in B2. destruct (p2_interrupt_ok p (B2 p Hp)) as (q & Q1 & Q2 & Q3).
    rewrite Q1, rated_interrupted_ok by assumption. right. apply (pick_cut B rs1 (Some q)); [intros b Hb; apply serves_cut; now apply HB|now apply serves_cut|intros b Hb; injection Hb as <-; exact Q2]. }
  destruct s2 as [[sol c]|] eqn:Es; [|destruct random eqn:Er].
  - exists z. eexists. exists fuel0. split; [|split; [|split; [|split; [|split]]]].
    + intros fuel Hfu. cbn [attempts]. cbv zeta. rewrite B1 by exact Hfu. cbv iota beta. rewrite Z1. reflexivity.
    + change (?a :: ?b) with ([a] ++ b). apply Forall_app. split; [exact Hi1|exact Hi2].
    + exact Hz.
    + destruct Hfz as [Y|Y]; [now left|right; exists t; split; [lia|exact Y]].
    + exact Z3.
    + intros t' rs' Ht Hgu Hfo. destruct (Nat.eq_dec t' t) as [->|Hne]; [now apply Hnow|]. destruct (Hgu t ltac:(lia)) as (pts' & fuel1 & G).
      specialize (G (fuel0 + fuel1)%nat ltac:(lia)). rewrite B1 in G by lia. discriminate.
  - destruct X as [x|]; [destruct B4|]. destruct rr as [|rr'].
    + exists z. eexists. exists fuel0. split; [|split; [|split; [|split; [|split]]]].
      * intros fuel Hfu. cbn [attempts]. cbv zeta. rewrite B1 by exact Hfu. cbv iota beta. rewrite Z1. reflexivity.
      * apply Forall_app. split; [exact Hi1|]. apply Forall_app. split; [exact Hi2|constructor].
      * exact Hz.
      * destruct Hfz as [Y|Y]; [now left|right; exists t; split; [lia|exact Y]].
      * exact Z3.
      * intros t' rs' Ht Hgu Hfo. assert (t' = t) by lia. subst t'. now apply Hnow.
    + destruct (IH (S t) (Some z)) as (rs & ints & fuel1 & I1 & I2 & I3 & I4 & I5 & I6); [lia|intros b Hb; injection Hb as <-; exact Hz|].
      exists rs. eexists. exists (fuel0 + fuel1)%nat. split; [|split; [|split; [|split; [|split]]]].
      * intros fuel Hfu. cbn [attempts]. cbv zeta. rewrite B1 by lia. cbv iota beta. rewrite Z1. specialize (I1 fuel ltac:(lia)). cbn [attempts] in I1. rewrite I1. reflexivity.
      * apply Forall_app. split; [exact Hi1|]. apply Forall_app. split; [exact Hi2|]. eapply Forall_impl; [|exact I2]. intros r [(_ & Y)|Y]; [discriminate|now right].
      * exact I3.
      * destruct I4 as [Y|(t' & Y1 & Y2)]; [injection Y as <-; destruct Hfz as [Y|Y]; [now left|right; exists t; split; [lia|exact Y]]|right; exists t'; split; [lia|exact Y2]].
      * intros b Hb. eapply nb_trans; [now apply I5|now apply Z3].
      * intros t' rs' Ht Hgu Hfo. destruct (Nat.eq_dec t' t) as [->|Hne].
        -- eapply nb_trans; [now apply I5|now apply Hnow].
        -- apply (I6 t' rs'); [lia|intros u Hu; apply Hgu; lia|exact Hfo].
  - destruct X as [x|]; [destruct B4|]. exists z. eexists. exists fuel0. split; [|split; [|split; [|split; [|split]]]].
    + intros fuel Hfu. cbn [attempts]. cbv zeta. rewrite B1 by exact Hfu. cbv iota beta. rewrite Z1. reflexivity.
    + apply Forall_app. split; [exact Hi1|exact Hi2].
    + exact Hz.
    + destruct Hfz as [Y|Y]; [now left|right; exists t; split; [lia|exact Y]].
    + exact Z3.
    + intros t' rs' Ht Hgu Hfo. assert (t' = t) by lia. subst t'. now apply Hnow.
Qed.

Lemma init_ok retries : retries <> Some 0%nat ->
  exists rs ints fuel0,
    (forall fuel, (fuel0 <= fuel)%nat -> cmt_2phase_init ceps seps N D d C L f minimize_K lam mu m most assoc order1 order2 shuffled argp retries fuel = Some (Some (encode rs), ints)) /\
    serves N D d C L ceps seps rs /\
    (let random := match retries with None => false | Some _ => true end in
     let n := match retries with None => 1%nat | Some n => n end in
     (exists t, (t < n)%nat /\ found_by (a1 random t) (a2 random t (p1_seeds (a1 random t))) rs) /\
     (forall t rs', (t < n)%nat -> (forall u, (u < t)%nat -> gives_up (a2 random u (p1_seeds (a1 random u)))) ->
        serves N D d C L ceps seps rs' -> found_by (a1 random t) (a2 random t (p1_seeds (a1 random t))) rs' -> not_beaten minimize_K D rs rs')) /\
    (forall sol, In (Some sol) ints -> exists q, sol = encode q /\ cut q).
Proof using Hf HfL Halone Ho1 Ho2 Hsh.
  intros Hr. set (random := match retries with None => false | Some _ => true end). set (n := match retries with None => 1%nat | Some n => n end).
  assert (Hn : (0 < n)%nat) by (unfold n; destruct retries as [[|k]|]; [congruence|lia|lia]).
  destruct (attempts_ok random n 0 None Hn) as (rs & ints & fuel0 & H1 & H2 & H3 & H4 & _ & H6); [discriminate|].
  exists rs, (map (option_map (fun x => fst (fst x))) ints), fuel0. split; [|split; [exact H3|split; [split|]]].
  - intros fuel Hfu. unfold cmt_2phase_init. cbv zeta. specialize (H1 fuel Hfu). unfold random, n in H1. destruct retries as [k|]; rewrite H1; reflexivity.
  - destruct H4 as [H4|(t & T1 & T2 & T3)]; [discriminate|]. exists t. split; [lia|exact T3].
  - intros t rs' Ht Hg Hs Hfo. apply (H6 t rs'); [|intros u Hu; apply Hg; lia|split; assumption]. unfold random, n in *. destruct retries; lia.
  - intros sol Hs. apply in_map_iff in Hs as (r & E & Hin). rewrite Forall_forall in H2. destruct (H2 r Hin) as [(-> & _)|(q & -> & Hq)]; [discriminate|].
    cbn in E. injection E as <-. eauto.
Qed.
End Init.
