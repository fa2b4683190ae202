(** * Proofs about the petal algorithm: results *)
From Verif Require Import Spec Spec_rfcs Spec_inter Spec_savings Spec_petal PyBase M_util M_cvrp_ops M_routedata M_inter M_ssavings M_sweep P_sweep3 P_driver P_inter P_inter2 M_petal P_petal2 P_petal3 P_petal4 P_petal5 P_petal6 P_petal7 P_petal8 P_cvrp P_base.
From Coq Require Import ZifyBool ZifyNat Lia Arith List Permutation.
Import ListNotations.
Local Open Scope Z_scope.

Section Loop.
Variable eps : Z.
Variables gurobi feas_relax : scp -> status.
Variable quicksum : list bool -> Z.
Variable N : nat.
Variable D : matrix.
Variable d : demands.
Variables C L : limit.
Hypothesis Heps : 0 <= eps.
Hypothesis Hsym : symmetric D.
Hypothesis Htri : triangle D.
Hypothesis HD0 : D 0%nat 0%nat = 0.
Hypothesis Hd : forall n, 0 <= d n.
Hypothesis Hd0 : d 0%nat = 0.
Hypothesis Hhonest : honest quicksum N gurobi.
Hypothesis HN : (2 <= N)%nat.
Variables minimize_K : bool.
Variable K : option Z.
Variable relaxe : bool.
Variables required min_iter : option nat.
Variable disc : discarding.
Variable limit_all : nat.
Variables restricted reduced extended : list petal.
Let base := restricted ++ reduced ++ extended.
Notation okp := (ok_petal eps N D d C L).
Hypothesis Hbase : Forall okp base.
Hypothesis Hsingle : forall n, (1 <= n < N)%nat -> In (wrap [n]) (pt_routes base).
Notation act := (active_of restricted reduced extended).
Notation iter := (petal_iter eps gurobi feas_relax N D d C L minimize_K K relaxe required min_iter disc limit_all restricted reduced extended).
Notation loop := (petal_loop eps gurobi feas_relax N D d C L minimize_K K relaxe required min_iter disc limit_all restricted reduced extended).
Notation Inv := (Inv eps N D d C L minimize_K restricted reduced extended).
Notation by_petals := (by_petals N restricted reduced extended).

Lemma step_ok st st' : Inv st -> iter st = inl st' ->
  Inv st' /\ (truthy (ps_K st) = None -> truthy (ps_K st') = None /\
    ((length (ps_forbidden st') = S (length (ps_forbidden st)) /\ (set_num (ps_set st) <= set_num (ps_set st'))%nat) \/
     (ps_forbidden st' = ps_forbidden st /\ (set_num (ps_set st) < set_num (ps_set st') <= 3)%nat))).
Proof using All. apply (step_inl eps gurobi feas_relax quicksum N D d C L Heps Hsym Htri HD0 Hd Hd0 Hhonest HN minimize_K K relaxe required min_iter disc limit_all restricted reduced extended Hbase Hsingle). Qed.

Lemma start_inv allow Kc : Inv (petal_start N restricted reduced extended Kc allow).
Proof using All.
  unfold P_petal7.Inv, petal_start. cbn [ps_relaxed ps_seen ps_forbidden ps_best ps_f ps_bK ps_feas]. repeat split; try constructor; easy.
Qed.

Lemma loop_last fuel : forall st out, Inv st -> loop fuel st = Some out ->
  exists st', Inv st' /\ (truthy (ps_K st) = None -> truthy (ps_K st') = None) /\ iter st' = inr (fst out) /\ ps_cnt st' = snd out.
Proof using All.
  induction fuel as [|fuel IH]; intros st out HI H; [discriminate|]. cbn [petal_loop] in H. destruct (iter st) as [st'|o] eqn:E.
  - destruct (step_ok st st' HI E) as [HI' HK]. destruct (IH st' out HI' H) as (st2 & A1 & A2 & A3). exists st2. split; [exact A1|]. split; [intros X; apply A2, HK, X|exact A3].
  - injection H as <-. exists st. split; [exact HI|]. split; [auto|]. split; [exact E|reflexivity].
Qed.

(** ** Interrupts: everything given is a partial solution *)
Lemma step_out st out : Inv st -> truthy K = None -> iter st = inr out ->
  match out with PtReturn b | PtInterrupt b => b = None \/ exists rs, b = Some (encode rs) /\ serves_some N D d C L eps rs | PtGurobiError => True end.
Proof using All.
  intros HI HK. pose proof (inv_best eps gurobi feas_relax quicksum N D d C L Heps Hsym Htri HD0 Hd Hd0 Hhonest HN minimize_K K relaxe required min_iter disc limit_all restricted reduced extended Hbase Hsingle st HI) as HB.
  unfold petal_iter. cbv zeta. destruct (phase1 gurobi feas_relax K restricted reduced extended st) as [ph|] eqn:E1; [|intros H; injection H as <-; exact I].
  pose proof (phase1_ok eps gurobi feas_relax quicksum N D d C L Heps Hsym Htri HD0 Hd Hd0 Hhonest restricted reduced extended Hbase K st ph E1) as (P1 & P2 & P3).
  destruct (match ph_routes ph with [] => false | _ :: _ => negb (seen_inZ (map snd (ph_routes ph)) (ps_forbidden st)) end) eqn:Efound.
  - change (if negb (ph_feas ph) && negb (ph_int ph) then let '(rs, ok) := remove_multiserved N D (map fst (ph_routes ph)) in (rs, ok, ps_allow st) else (map fst (ph_routes ph), ph_feas ph, false)) with (treat N D st ph).
    destruct (ph_int ph) eqn:Eint; [destruct P3 as [P3 _]; rewrite (P3 HK) in Efound; discriminate|].
    assert (Hne : ph_routes ph <> []) by (destruct (ph_routes ph); discriminate).
    assert (Hnew : seen_inZ (map snd (ph_routes ph)) (ps_forbidden st) = false) by (destruct (ph_routes ph); [discriminate|]; now apply negb_true_iff in Efound).
    destruct (treat N D st ph) as [[routes feas] allow] eqn:Et.
    set (sol := match routes2sol (map Some routes) with Some s => s | None => [] end). set (f := objf sol D). set (k := (count_occ Nat.eq_dec sol 0%nat - 1)%nat).
    set (accept := if ps_feas st then feas && better_or_same minimize_K st f k else feas || better_or_same minimize_K st f k).
    match goal with |- match ?e with _ => _ end = _ -> _ => destruct e as [[set' K'] stop] eqn:Enext end.
    destruct (if accept then (Some sol, Some f, k, feas) else (ps_best st, ps_f st, ps_bK st, ps_feas st)) as [[[best bf] bK] bfeas] eqn:Ebest.
    match goal with |- (if ?c then _ else _) = _ -> _ => destruct c end; [|destruct relaxe; [destruct (fold_left _ _ _) as [[? ?] ?]|]; discriminate].
    intros H. injection H as <-.
    destruct (inv_choice eps gurobi feas_relax quicksum N D d C L Heps Hsym Htri HD0 Hd Hd0 Hhonest HN minimize_K K relaxe required min_iter disc limit_all restricted reduced extended Hbase Hsingle st ph HI E1 Eint Hne Hnew routes feas allow Et) as (rs & R1 & R2 & R3 & _).
    fold sol in R3. destruct accept; injection Ebest as <- _ _ _; [right; exists rs; split; [now rewrite R3|exact R2]|exact HB].
  - destruct (ph_set ph); [| |destruct (truthy (ps_K st))]; try (destruct (ph_int ph); [|discriminate]); intros H; injection H as <-; exact HB.
Qed.

(** ** The search ends *)
Definition all_routes : list (list nat) := map wrap (words N (seq 1 (N - 1))).
Lemma relaxed_bound st : Inv st -> (length (ps_relaxed st) <= length all_routes)%nat.
Proof using All.
  intros (I1 & I2 & _). rewrite <- (map_length pt_route (ps_relaxed st)). apply NoDup_incl_length; [exact I2|].
  intros r Hr. apply in_map_iff in Hr. destruct Hr as (p & <- & Hp). rewrite Forall_forall in I1. destruct (I1 p Hp) as (r & E & _ & _ & Hr1 & Hr2 & _). rewrite E. apply in_map, in_words.
  - assert (length r <= length (seq 1 (N - 1)))%nat as Hl; [|rewrite seq_length in Hl; lia]. apply NoDup_incl_length; [exact Hr1|]. intros x Hx. apply in_seq. specialize (Hr2 x Hx). lia.
  - intros x Hx. apply in_seq. specialize (Hr2 x Hx). lia.
Qed.
Definition indices : list Z := map (fun k => Z.of_nat k - Z.of_nat (length all_routes)) (seq 0 (length all_routes + length base)).
Definition all_combos : list (list Z) := words (length indices) indices.
Lemma forbidden_bound st : Inv st -> (length (ps_forbidden st) <= length all_combos)%nat.
Proof using All.
  intros HI. pose proof (relaxed_bound st HI) as HR. destruct HI as (I1 & _ & _ & I4 & I5 & _). apply NoDup_incl_length; [exact I5|].
  intros fz Hf. rewrite Forall_forall in I4. destruct (I4 fz Hf) as [F1 F2].
  assert (Hi : incl fz indices).
  { intros z Hz. specialize (F2 z Hz). fold base in F2. apply in_map_iff. exists (Z.to_nat (z + Z.of_nat (length all_routes))). split; [lia|]. apply in_seq. lia. }
  apply in_words; [apply NoDup_incl_length; assumption|exact Hi].
Qed.

Lemma loop_ends : forall m st, Inv st -> truthy (ps_K st) = None -> (length all_combos - length (ps_forbidden st) + (3 - set_num (ps_set st)) < m)%nat ->
  exists out, forall fuel, (m <= fuel)%nat -> loop fuel st = Some out.
Proof using All.
  induction m as [|m IH]; intros st HI HK Hm; [lia|]. destruct (iter st) as [st'|o] eqn:E.
  - destruct (step_ok st st' HI E) as [HI' HS]. destruct (HS HK) as [HK' Hc].
    assert (Hb : (length all_combos - length (ps_forbidden st') + (3 - set_num (ps_set st')) < m)%nat).
    { pose proof (forbidden_bound st' HI') as B1. pose proof (forbidden_bound st HI) as B2. destruct Hc as [[H1 H2]|[H1 H2]]; [|rewrite H1]; lia. }
    destruct (IH st' HI' HK' Hb) as (out & Ho). exists out. intros fuel Hf. destruct fuel as [|fuel]; [lia|]. cbn [petal_loop]. rewrite E. apply Ho. lia.
  - exists (o, ps_cnt st). intros fuel Hf. destruct fuel as [|fuel]; [lia|]. cbn [petal_loop]. rewrite E. reflexivity.
Qed.
End Loop.

(** ** More fuel does not change a sweep *)
Lemma generate_more eps ratio C_t N D d C L f order fuel fuel' g : (fuel <= fuel')%nat -> generate_petals eps ratio C_t N D d C L f order fuel = Some g ->
  generate_petals eps ratio C_t N D d C L f order fuel' = Some g.
Proof.
  intros Hle. unfold generate_petals. generalize (mkgen [] [] [] []). induction (range 0 (N - 1)) as [|s l IH]; intros g0 H; cbn [gen_starts] in *; [exact H|].
  destruct (do_one_sweep eps eps D d C L f order true true s fuel) as [[rds|]|] eqn:E; try discriminate.
  rewrite (sweep_mono _ _ _ _ _ _ _ _ _ _ _ _ _ _ Hle E). apply IH, H.
Qed.

Lemma rc_cons D r rs : routes_cost D (r :: rs) = route_cost D r + routes_cost D rs.
Proof. reflexivity. Qed.

Section Init.
Variable eps : Z.
Variables gurobi feas_relax : scp -> status.
Variable quicksum : list bool -> Z.
Variable N : nat.
Variable D : matrix.
Variable d : demands.
Variables C L : limit.
Hypothesis Heps : 0 <= eps.
Hypothesis Hsym : symmetric D.
Hypothesis Htri : triangle D.
Hypothesis HD0 : D 0%nat 0%nat = 0.
Hypothesis Hd : forall n, 0 <= d n.
Hypothesis Hd0 : d 0%nat = 0.
Variable f : routing.
Variable order : list nat.
Hypothesis Hf : solver N D f.
Hypothesis Halone : served_alone N D d C L eps eps.
Hypothesis Hperm : Permutation order (seq 1 (N - 1)).
Hypothesis Hhonest : honest quicksum N gurobi.
Hypothesis HN : (2 <= N)%nat.
Variable K : option Z.
Variables minimize_K relaxe : bool.
Variables required min_iter : option nat.
Variable ratio : option (Z * Z).
Variable allow : bool.
Variable disc : discarding.
Variable v : Z.
Notation init := (petal_init eps gurobi feas_relax N D d C L f order K minimize_K relaxe required min_iter ratio allow disc v).

Lemma init_parts : exists fuel0 g Kc, 
  (truthy K = None -> minimize_K = false -> truthy Kc = None) /\
  (forall n, (1 <= n < N)%nat -> In (wrap [n]) (pt_routes (all_of g))) /\ GInv eps N D d C L g /\
  (forall s k, swept D d C L eps f order s k -> In (rd_normalize (fst (f (0%nat :: arc order s k)))) (pt_routes (all_of g))) /\
  (forall fuel, init fuel = None \/ init fuel = petal_loop eps gurobi feas_relax N D d C L minimize_K K relaxe required min_iter disc (100 * 100)%nat (gn_restricted g) (gn_reduced g) (gn_extended g)
        fuel (petal_start N (gn_restricted g) (gn_reduced g) (gn_extended g) Kc allow)) /\
  (forall fuel, (fuel0 <= fuel)%nat -> init fuel = petal_loop eps gurobi feas_relax N D d C L minimize_K K relaxe required min_iter disc (100 * 100)%nat (gn_restricted g) (gn_reduced g) (gn_extended g)
        fuel (petal_start N (gn_restricted g) (gn_reduced g) (gn_extended g) Kc allow)).
Proof using All.
  set (C_t := match truthy C with Some c => match truthy K with Some k => sumZ (map d (range 0 N)) - (k - 1) * c | None => sumZ (map d (range 0 N)) - (v - 1) * c end | None => 0 end).
  destruct (generate_ok eps N D d C L Hsym Htri Hd f order Hf Halone Hperm ratio C_t) as (fuel0 & g & G1 & G2 & G3).
  exists fuel0, g, (match truthy K with None => if minimize_K then Some (match truthy C with Some _ => v | None => 1 end) else K | Some _ => K end).
  split; [intros HK Hm; rewrite HK, Hm; exact HK|].
  split; [intros n Hn; destruct (G3 n Hn) as (p & Hp & Ep); rewrite <- Ep; apply in_map, Hp|]. split; [exact G2|].
  split. { intros s k Hs. destruct G2 as (_ & G2 & _). apply G2. exact (generate_all _ _ _ _ _ _ _ _ _ _ _ _ Hperm (G1 fuel0 (le_n _)) s k Hs). }
  split; [|intros fuel Hfu; unfold petal_init; fold C_t; rewrite (G1 fuel Hfu); reflexivity].
  intros fuel. unfold petal_init. fold C_t. destruct (generate_petals eps ratio C_t N D d C L f order fuel) as [g'|] eqn:E; [right|now left].
  assert (g' = g) as ->; [|reflexivity]. pose proof (generate_more _ _ _ _ _ _ _ _ _ _ fuel (Nat.max fuel fuel0) g' ltac:(lia) E) as E2. rewrite (G1 (Nat.max fuel fuel0) ltac:(lia)) in E2. congruence.
Qed.

Lemma init_result fuel b cnt : uninterrupted gurobi -> uninterrupted feas_relax -> required = None -> init fuel = Some (PtReturn b, cnt) ->
  exists rs, b = Some (encode rs) /\ serves_all N D d C L eps rs /\
    (minimize_K = false -> truthy K = None -> (cnt <= 100 * 100)%nat -> forall rs', covers N rs' ->
      Forall (fun r => exists s k, swept D d C L eps f order s k /\ fst (f (0%nat :: arc order s k)) = wrap r) rs' -> routes_cost D rs <= routes_cost D rs').
Proof using All.
  intros Hu1 Hu2 Hreq H. destruct init_parts as (fuel0 & g & Kc & P1 & P2 & P3 & P4 & P5 & _). destruct (P5 fuel) as [E|E]; [congruence|]. rewrite E in H. clear E P5.
  pose proof P3 as (Hb & _).
  destruct (loop_last eps gurobi feas_relax quicksum N D d C L Heps Hsym Htri HD0 Hd Hd0 Hhonest HN minimize_K K relaxe required min_iter disc _ _ _ _ Hb P2 fuel _ _ 
     (start_inv eps gurobi feas_relax quicksum N D d C L Heps Hsym Htri HD0 Hd Hd0 Hhonest HN minimize_K K relaxe required min_iter disc (100 * 100)%nat _ _ _ Hb P2 allow Kc) H) as (st & S1 & S2 & S3 & S4).
  destruct (step_return eps gurobi feas_relax quicksum N D d C L Heps Hsym Htri HD0 Hd Hd0 Hhonest HN minimize_K K relaxe required min_iter disc _ _ _ _ Hb P2 st b S1 Hu1 Hu2 Hreq S3) as (rs & R1 & R2 & R3).
  exists rs. split; [exact R1|]. split; [exact R2|]. intros Hm HK Hc rs' Hcov Hrs.
  assert (HX : exists rs2, by_petals N (gn_restricted g) (gn_reduced g) (gn_extended g) rs2 /\ routes_cost D rs2 = routes_cost D rs').
  { assert (HY : exists rs2, Forall (fun r => In (wrap r) (pt_routes (all_of g))) rs2 /\ routes_cost D rs2 = routes_cost D rs' /\ Permutation (concat rs2) (concat rs')).
    { clear Hcov. induction rs' as [|r rs' IH]; [exists []; repeat split; constructor|]. inversion Hrs as [|? ? (s & k & Hs & Er) H2]; subst. destruct (IH H2) as (rs2 & A1 & A2 & A3).
      pose proof (P4 s k Hs) as HP. rewrite Er in HP. destruct (normalize_wrap r) as [En|En]; rewrite En in HP.
      - exists (r :: rs2). split; [constructor; assumption|]. split; [rewrite !rc_cons; lia|]. cbn. now apply Permutation_app_head.
      - exists (rev r :: rs2). split; [constructor; assumption|]. split; [|cbn; apply Permutation_app; [apply Permutation_sym, Permutation_rev|exact A3]].
        rewrite !rc_cons. pose proof (route_cost_rev D r Hsym). lia. }
    destruct HY as (rs2 & A1 & A2 & A3). exists rs2. split; [|exact A2]. split; [|exact A1]. unfold covers in *. eapply Permutation_trans; eassumption. }
  destruct HX as (rs2 & X1 & <-). apply (R3 Hm); [apply S2; cbn; apply P1; assumption|rewrite S4; exact Hc|exact X1].
Qed.

Lemma init_any fuel out cnt : truthy K = None -> init fuel = Some (out, cnt) ->
  match out with PtReturn b | PtInterrupt b => b = None \/ exists rs, b = Some (encode rs) /\ serves_some N D d C L eps rs | PtGurobiError => True end.
Proof using All.
  intros HK H. destruct init_parts as (fuel0 & g & Kc & P1 & P2 & P3 & P4 & P5 & _). destruct (P5 fuel) as [E|E]; [congruence|]. rewrite E in H. clear E P5.
  pose proof P3 as (Hb & _).
  destruct (loop_last eps gurobi feas_relax quicksum N D d C L Heps Hsym Htri HD0 Hd Hd0 Hhonest HN minimize_K K relaxe required min_iter disc _ _ _ _ Hb P2 fuel _ _ 
     (start_inv eps gurobi feas_relax quicksum N D d C L Heps Hsym Htri HD0 Hd Hd0 Hhonest HN minimize_K K relaxe required min_iter disc (100 * 100)%nat _ _ _ Hb P2 allow Kc) H) as (st & S1 & S2 & S3 & S4).
  exact (step_out eps gurobi feas_relax quicksum N D d C L Heps Hsym Htri HD0 Hd Hd0 Hhonest HN minimize_K K relaxe required min_iter disc _ _ _ _ Hb P2 st out S1 HK S3).
Qed.

Lemma init_ends : truthy K = None -> minimize_K = false -> exists fuel0 out, forall fuel, (fuel0 <= fuel)%nat -> init fuel = Some out.
Proof using All.
  intros HK Hm. destruct init_parts as (fuel0 & g & Kc & P1 & P2 & P3 & P4 & _ & P5). pose proof P3 as (Hb & _).
  destruct (loop_ends eps gurobi feas_relax quicksum N D d C L Heps Hsym Htri HD0 Hd Hd0 Hhonest HN minimize_K K relaxe required min_iter disc (100 * 100)%nat _ _ _ Hb P2 _ 
     (petal_start N (gn_restricted g) (gn_reduced g) (gn_extended g) Kc allow)
     (start_inv eps gurobi feas_relax quicksum N D d C L Heps Hsym Htri HD0 Hd Hd0 Hhonest HN minimize_K K relaxe required min_iter disc (100 * 100)%nat _ _ _ Hb P2 allow Kc)
     (P1 HK Hm) (le_n _)) as (out & Ho).
  match type of Ho with forall fuel, (?m <= fuel)%nat -> _ => exists (Nat.max fuel0 m), out end. intros fuel Hfu. rewrite P5 by lia. apply Ho. lia.
Qed.
End Init.
