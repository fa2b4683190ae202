(** * The main loop *)
From Verif Require Import Spec Spec_ls Spec_inter PyBase M_util M_cvrp_ops M_routedata M_driver Spec_driver
     P_base P_validate P_cvrp P_util P_savfam P_intra2 P_inter P_driver P_driver2 P_driver3 M_cli Spec_cli P_cli P_cli2.
From Coq Require Import ZifyBool ZifyNat.

Lemma D2D_c_symmetric u idt D st Dc : D2D_c u idt D st = Some Dc -> symmetric D -> symmetric Dc.
Proof.
  unfold D2D_c. destruct (truthy st) as [s|]; [|discriminate]. cbv zeta. intros E HS i j. injection E as <-.
  rewrite (HS j i). rewrite (Nat.eqb_sym j i). destruct (Nat.eqb i j); [reflexivity|].
  destruct (Nat.eqb i 0), (Nat.eqb j 0); cbn [negb andb]; lia.
Qed.

(** The matrix with service times: the same extra for all routings of the same customers. *)
Definition shifted (D Dc : matrix) : Prop :=
  symmetric Dc /\ Dc 0%nat 0%nat = 0 /\
  exists t h, forall r, customers_only r -> NoDup r -> r <> [] -> route_cost Dc r = route_cost D r + Z.of_nat (length r) * t + h.

Lemma proper_shifted p : proper_problem p -> shifted (p_D p) (p_Dc p).
Proof.
  intros (_ & HS & H0 & _ & _ & _ & [E|(u & idt & st & E)]).
  - rewrite E. split; [exact HS|]. split; [exact H0|]. exists 0, 0. intros. lia.
  - split; [now apply (D2D_c_symmetric u idt (p_D p) st)|]. split; [now apply (D2D_c_empty u idt (p_D p) st)|].
    destruct (D2D_c_cost u idt (p_D p) st (p_Dc p) E H0) as (t & h & HX & _). exists t, (2 * h - t). intros r A B C. rewrite HX by assumption. lia.
Qed.
Lemma shown_shifted o p : proper_problem p -> shifted (p_D p) (shown_matrix o p).
Proof.
  intros Hp. unfold shown_matrix. destruct (o_show_cost o); [now apply proper_shifted|].
  destruct Hp as (_ & HS & H0 & _). split; [exact HS|]. split; [exact H0|]. exists 0, 0. intros. lia.
Qed.

Lemma distinct_nodup rs : distinct_customers rs -> Forall (@NoDup nat) rs.
Proof.
  intros [H _]. induction rs as [|r rs IH]; constructor; cbn [concat] in H.
  - apply (Permutation_NoDup (Permutation_app_comm _ _)) in H. now apply NoDup_app_r in H.
  - apply IH. now apply NoDup_app_r in H.
Qed.

Lemma routes_cost_cons D r rs : routes_cost D (r :: rs) = route_cost D r + routes_cost D rs.
Proof. reflexivity. Qed.

Lemma shifted_total D Dc : shifted D Dc -> exists t h, forall rs, distinct_customers rs -> Forall (fun r => r <> []) rs ->
  routes_cost Dc rs = routes_cost D rs + Z.of_nat (length (concat rs)) * t + Z.of_nat (length rs) * h.
Proof.
  intros (_ & _ & t & h & H). exists t, h. intros rs Hd. pose proof (distinct_each rs Hd) as Hc. pose proof (distinct_nodup rs Hd) as Hn.
  clear Hd. intros Hne. induction rs as [|r rs IH]; [reflexivity|]. inversion Hc; inversion Hn; inversion Hne; subst.
  rewrite !routes_cost_cons, H, IH by assumption. cbn [concat length]. rewrite app_length. lia.
Qed.

Lemma same_routes_nonempty_len rs ns : same_routes rs ns -> length ns = length rs.
Proof. intros (fs & HF & HP). rewrite <- (Permutation_length HP). symmetry. exact (Forall2_len _ _ _ HF). Qed.

Lemma feasible_ok eps D d C L rs : Forall (feasible D d C L eps eps) rs <-> cap_ok d C eps rs /\ len_ok D L eps rs.
Proof.
  unfold cap_ok, len_ok, feasible. rewrite !Forall_forall. split.
  - intros H. split; intros r Hr; now apply (H r).
  - intros [H1 H2] r Hr. split; auto.
Qed.

Section Main.
Variables (eps : Z) (o : options).
Hypothesis He : 0 <= eps.
Hypothesis Hls : forall op, In op (o_ls o) -> (op <= 3)%nat.

(** The verdict on a solution with proper routes. *)
Lemma verdict p ns : proper_problem p -> distinct_customers ns -> Forall (fun c => (c < p_N p)%nat) (concat ns) ->
  exists ok, all_ok (validate_solution_feasibility (p_N p) (encode ns) (p_Dc p) (p_d p) (p_C p) (p_L p) eps) = Some ok /\
    (ok = true <-> covers (p_N p) ns /\ Forall (feasible (p_Dc p) (p_d p) (p_C p) (p_L p) eps eps) ns).
Proof using All.
  intros Hp Hd Hlt. pose proof (proper_shifted p Hp) as (_ & Hz & _). destruct Hp as (HN & HS & H0 & Hd0 & HC & HL & _).
  destruct (validate_encode (p_N p) (p_Dc p) (p_d p) (p_C p) (p_L p) eps ns) as (b1 & b2 & b3 & E & H1 & H2 & H3).
  - lia.
  - exact Hd0.
  - now apply distinct_each.
  - apply Forall_forall. intros x Hx. unfold encode in Hx. destruct Hx as [<-|Hx]; [lia|].
    apply in_flat_map in Hx. destruct Hx as (r & Hr & Hx). apply in_app_or in Hx. destruct Hx as [Hx|[<-|[]]]; [|lia].
    rewrite Forall_forall in Hlt. apply Hlt. apply in_concat. now exists r.
  - rewrite E. exists (b1 && b2 && b3). split; [reflexivity|]. rewrite feasible_ok.
    assert (W2 : cap_ok (p_d p) (p_C p) eps (ns ++ [[]]) <-> cap_ok (p_d p) (p_C p) eps ns).
    { unfold cap_ok. rewrite Forall_app. split; [easy|]. intros X. split; [exact X|]. constructor; [|constructor].
      unfold within. destruct (p_C p) as [c|]; [|easy]. intros _. specialize (HC c eq_refl). cbn. lia. }
    assert (W3 : len_ok (p_Dc p) (p_L p) eps (ns ++ [[]]) <-> len_ok (p_Dc p) (p_L p) eps ns).
    { unfold len_ok. rewrite Forall_app. split; [easy|]. intros X. split; [exact X|]. constructor; [|constructor].
      unfold within. destruct (p_L p) as [l|]; [|easy]. intros _. specialize (HL l eq_refl).
      change (route_cost (p_Dc p) []) with (p_Dc p 0%nat 0%nat + 0). lia. }
    rewrite <- H1, <- W2, <- W3, <- H2, <- H3. destruct b1, b2, b3; cbn; intuition discriminate.
Qed.

(** The solution after normalization and post-optimization. *)
Lemma improved p rs : proper_problem p -> proper_solution (p_N p) rs ->
  exists ns fuel0,
    (forall fuel, (fuel0 <= fuel)%nat -> improve_solution eps o p (Some (encode rs)) fuel =
       Solution (encode ns) (routes_cost (shown_matrix o p) ns) (length ns)) /\
    distinct_customers ns /\ Forall (fun r => r <> []) ns /\ length ns = length (driven rs) /\ Permutation (concat ns) (concat rs) /\
    (Forall (feasible (p_Dc p) (p_d p) (p_C p) (p_L p) eps eps) (driven rs) ->
     Forall (feasible (p_Dc p) (p_d p) (p_C p) (p_L p) eps eps) ns) /\
    routes_cost (shown_matrix o p) ns <= routes_cost (shown_matrix o p) rs.
Proof using All.
  intros Hp (Hd & Hlt & Hne).
  pose proof (shown_shifted o p Hp) as Hsh. pose proof (proper_shifted p Hp) as Hsc.
  set (M := shown_matrix o p) in *.
  assert (HM : symmetric M /\ M 0%nat 0%nat = 0) by (destruct Hsh as (A & B & _); easy).
  assert (HDc : symmetric (p_Dc p)) by (now destruct Hsc).
  pose proof (distinct_each rs Hd) as Hcu.
  assert (Hd1 : distinct_customers (nf rs)) by (apply (dist_perm rs); [apply nf_concat|exact Hd]).
  assert (F1 : Forall (feasible (p_Dc p) (p_d p) (p_C p) (p_L p) eps eps) (driven rs) ->
               Forall (feasible (p_Dc p) (p_d p) (p_C p) (p_L p) eps eps) (nf rs)).
  { rewrite !feasible_ok. intros [A B]. pose proof (nf_same rs) as Hs. split; [exact (same_routes_cap _ _ _ _ _ Hs A)|exact (same_routes_len _ _ _ _ _ HDc Hs B)]. }
  assert (I1 : forall fuel, improve_solution eps o p (Some (encode rs)) fuel =
     match o_ls o with
     | [] => Solution (encode (nf rs)) (routes_cost M (nf rs)) (length (nf rs))
     | _ :: _ =>
         match do_local_search eps (library eps (p_D p) (p_d p) (p_C p) (p_L p)) (o_ls o) (encode (nf rs)) (p_D p) (p_d p) true IterAll None fuel with
         | None => NoFuel
         | Some ls_sol =>
             match normalize_solution (Giant ls_sol) with
             | None => SolveFailed
             | Some nls =>
                 match recalculate_objective (Giant nls) M with
                 | None => SolveFailed
                 | Some ls_q => if ls_q <? routes_cost M (nf rs) then Solution nls ls_q (count_routes nls)
                                else Solution nls (routes_cost M (nf rs)) (length (nf rs))
                 end
             end
         end
     end).
  { intros fuel. unfold improve_solution. change (encode rs) with (0%nat :: flat_map (fun r => r ++ [0%nat]) rs) at 1. cbv iota beta.
    change (0%nat :: flat_map (fun r => r ++ [0%nat]) rs) with (encode rs). rewrite (normalize_giant rs Hcu). fold M.
    rewrite (recalc_giant M (nf rs) (proj2 HM)). unfold count_routes at 1 3. rewrite count_encode by now apply nf_customers.
    replace (S (length (nf rs)) - 1)%nat with (length (nf rs)) by lia. reflexivity. }
  destruct (o_ls o) as [|op ops] eqn:Els.
  - exists (nf rs), 0%nat. split; [intros fuel _; apply I1|]. split; [exact Hd1|]. split; [apply nf_nonempty|]. split; [apply nf_len|].
    split; [apply nf_concat|]. split; [exact F1|]. rewrite (nf_cost M rs) by apply HM. lia.
  - destruct Hp as (HN & HS & H0 & Hd0 & HC & HL & HX).
    destruct (intra_search eps (p_D p) (p_d p) (p_C p) (p_L p) (op :: ops) true IterAll None (nf rs) He HS Hd0) as (rs2 & fuel0 & HF & HLn & HP & HCc & HR & HO).
    { intros x Hx. apply Hls. exact Hx. }
    { exact Hd1. }
    { apply nf_nonempty. }
    assert (Hne2 : Forall (fun r => r <> []) rs2).
    { apply Forall_forall. intros q Hq. destruct (HR q Hq) as (r & Hr & HPr & _). pose proof (nf_nonempty rs) as X.
      rewrite Forall_forall in X. specialize (X r Hr). intros ->. apply Permutation_sym, Permutation_nil in HPr. easy. }
    assert (Hd2 : distinct_customers rs2) by (apply (dist_perm (nf rs)); assumption).
    assert (EM : routes_cost M rs2 <= routes_cost M (nf rs)).
    { destruct (shifted_total (p_D p) M Hsh) as (t & h & HT). rewrite (HT rs2), (HT (nf rs)) by (assumption || apply nf_nonempty).
      rewrite (Permutation_length HP), HLn. destruct HCc as [->|X]; lia. }
    assert (EN : routes_cost M (nf rs2) = routes_cost M rs2) by (apply nf_cost; apply HM).
    assert (EL : length (nf rs2) = length (nf rs)) by (rewrite nf_len; unfold driven; rewrite nonempty_id by exact Hne2; exact HLn).
    exists (nf rs2), fuel0. split; [|split; [|split; [|split; [|split; [|split]]]]].
    + intros fuel Hfu. rewrite I1, (HF fuel Hfu), (normalize_giant rs2 (distinct_each rs2 Hd2)), (recalc_giant M (nf rs2) (proj2 HM)).
      unfold count_routes. rewrite count_encode by (apply nf_customers; now apply distinct_each).
      destruct (Z.ltb_spec (routes_cost M (nf rs2)) (routes_cost M (nf rs))).
      * f_equal. lia.
      * f_equal; lia.
    + apply (dist_perm rs2); [apply nf_concat|exact Hd2].
    + apply nf_nonempty.
    + rewrite EL. apply nf_len.
    + rewrite nf_concat, HP. apply nf_concat.
    + intros HFe. specialize (F1 HFe).
      assert (F2 : Forall (feasible (p_Dc p) (p_d p) (p_C p) (p_L p) eps eps) rs2).
      { apply Forall_forall. intros q Hq. destruct (HR q Hq) as (r & Hr & HPr & HCr). rewrite Forall_forall in F1. destruct (F1 r Hr) as [G1 G2].
        split; [rewrite <- (demand_perm (p_d p) r q HPr); exact G1|].
        destruct Hsc as (_ & _ & t & h & HT).
        assert (Hr' : customers_only r /\ NoDup r /\ r <> []).
        { pose proof (distinct_each _ Hd1) as X1. pose proof (distinct_nodup _ Hd1) as X2. pose proof (nf_nonempty rs) as X3.
          rewrite Forall_forall in X1, X2, X3. auto. }
        assert (Hq' : customers_only q /\ NoDup q /\ q <> []).
        { pose proof (distinct_each _ Hd2) as X1. pose proof (distinct_nodup _ Hd2) as X2. rewrite Forall_forall in X1, X2, Hne2. auto. }
        rewrite (HT r) in G2 by apply Hr'. rewrite (HT q) by apply Hq'. rewrite <- (Permutation_length HPr).
        clear -G2 HCr. unfold within in *. destruct (p_L p); [|easy]. intros Hz. specialize (G2 Hz). lia. }
      revert F2. rewrite !feasible_ok. intros [A B]. pose proof (nf_same rs2) as Hs. rewrite nonempty_id in Hs by exact Hne2.
      split; [exact (same_routes_cap _ _ _ _ _ Hs A)|exact (same_routes_len _ _ _ _ _ HDc Hs B)].
    + rewrite EN. rewrite (nf_cost M rs) in EM by apply HM. exact EM.
Qed.


Lemma one_job p run a : proper_problem p -> proper_outcome (p_N p) (run a p) -> printable o p ->
  exists fuel0 r, job_report eps o run (p, a) r /\
    forall data, exists data', forall fuel, (fuel0 <= fuel)%nat -> forall rest,
      run_algos eps o run p (a :: rest) fuel data =
      if negb (o_simulate o) && interrupted (run a p) then ([r], Stopped, data')
      else let '(rs, e, data2) := run_algos eps o run p rest fuel data' in (r :: rs, e, data2).
Proof using All.
  intros Hp Ho Hpr. unfold job_report.
  destruct (o_simulate o) eqn:Es.
  { exists 0%nat. eexists. split; [reflexivity|]. intros data. exists data. intros fuel _ rest. cbn [run_algos negb andb]. rewrite Es. reflexivity. }
  cbn [negb andb].
  assert (HU : found (run a p) = None \/ found (run a p) = Some [] -> 
    forall data fuel rest, run_algos eps o run p (a :: rest) fuel data =
      if interrupted (run a p) then ([Unsolved (p_file p) a true], Stopped, data)
      else let '(rs, e, data2) := run_algos eps o run p rest fuel data in (Unsolved (p_file p) a false :: rs, e, data2)).
  { intros HU data fuel rest. cbn [run_algos]. rewrite Es. destruct (run a p) as [s|s|]; cbn [found interrupted] in *.
    - destruct HU as [->| ->]; reflexivity.
    - destruct HU as [->| ->]; reflexivity.
    - reflexivity. }
  destruct (found (run a p)) as [[|x t]|] eqn:Ef.
  - exists 0%nat. eexists. split; [reflexivity|]. intros data. exists data. intros fuel _ rest. rewrite HU by now right.
    now destruct (interrupted (run a p)).
  - destruct (Ho _ Ef) as [X|(rs & Er & Hrs)]; [discriminate|].
    destruct (improved p rs Hp Hrs) as (ns & fuel0 & HF & A1 & A2 & A3 & A4 & A5 & A6).
    assert (Hlt : Forall (fun c => (c < p_N p)%nat) (concat ns)).
    { destruct Hrs as (_ & X & _). rewrite Forall_forall in *. intros c Hc. apply X. now rewrite <- A4. }
    destruct (verdict p ns Hp A1 Hlt) as (ok & Ev & Hok).
    exists fuel0. exists (Solved (p_file p) a (encode ns) ok (routes_cost (shown_matrix o p) ns) (length ns) (interrupted (run a p))).
    split.
    { exists rs. split; [exact Er|]. split; [exact Hrs|]. exists ns, ok. split; [reflexivity|]. split; [exact A2|]. split; [exact A3|]. split; [exact A4|].
      split; [exact Hok|]. split; [|exact A6]. intros HC HFe. apply Hok. split; [unfold covers; now rewrite A4|now apply A5]. }
    assert (HK : (1 <= length ns)%nat).
    { destruct ns; [|cbn; lia]. exfalso. destruct Hrs as (_ & _ & X). apply X. apply Permutation_nil. exact A4. }
    intros data.
    assert (HR : exists data', make_report eps o p a (encode ns) (routes_cost (shown_matrix o p) ns) (length ns) (interrupted (run a p)) data =
       Some (Solved (p_file p) a (encode ns) ok (routes_cost (shown_matrix o p) ns) (length ns) (interrupted (run a p)), data')).
    { unfold make_report. rewrite Ev. destruct (o_minimal o) eqn:Em; [eexists; reflexivity|].
      destruct Hpr as [X|HC]; [congruence|].
      assert (ET : match truthy (p_C p) with Some _ => negb (Nat.eqb (length ns) 0) | None => false end = true).
      { unfold limit_set in HC. unfold truthy. destruct (p_C p) as [c|]; [|easy]. destruct (Z.eqb_spec c 0); [congruence|].
        destruct (Nat.eqb_spec (length ns) 0); [lia|reflexivity]. }
      rewrite ET. destruct (match recorded data (p_file p) with None => true | Some k => Nat.ltb (length ns) k end); eexists; reflexivity. }
    destruct HR as (data' & HR). exists data'. intros fuel Hfu rest. cbn [run_algos]. rewrite Es.
    specialize (HF fuel Hfu). rewrite <- Er in HF.
    destruct (run a p) as [s|s|]; cbn [found interrupted] in *; try discriminate; subst s; rewrite HF, HR; reflexivity.
  - exists 0%nat. eexists. split; [reflexivity|]. intros data. exists data. intros fuel _ rest. rewrite HU by now left.
    now destruct (interrupted (run a p)).
Qed.


Lemma algos_run p run algos : proper_problem p -> (forall a, In a algos -> proper_outcome (p_N p) (run a p)) -> printable o p ->
  exists fuel0 reports, Forall2 (job_report eps o run) (until_interrupt (stops o run) (map (pair p) algos)) reports /\
    forall data, exists data', forall fuel, (fuel0 <= fuel)%nat ->
      run_algos eps o run p algos fuel data =
      (reports, if existsb (stops o run) (map (pair p) algos) then Stopped else AllDone, data').
Proof using All.
  intros Hp Ho Hpr. induction algos as [|a algos IH].
  { exists 0%nat, []. split; [constructor|]. intros data. exists data. reflexivity. }
  destruct (one_job p run a Hp (Ho a (or_introl eq_refl)) Hpr) as (f1 & r & Hr & H1).
  destruct IH as (f2 & reports & HF & H2). { intros a' Ha'. apply Ho. now right. }
  cbn [map until_interrupt existsb]. unfold stops at 1 3. cbn [fst snd].
  destruct (negb (o_simulate o) && interrupted (run a p)) eqn:E.
  - exists f1, [r]. split; [constructor; [exact Hr|constructor]|]. intros data. destruct (H1 data) as (data' & H1').
    exists data'. intros fuel Hfu. rewrite (H1' fuel Hfu). reflexivity.
  - exists (Nat.max f1 f2), (r :: reports). split; [constructor; assumption|]. intros data. destruct (H1 data) as (d1 & H1').
    destruct (H2 d1) as (d2 & H2'). exists d2. intros fuel Hfu. rewrite (H1' fuel ltac:(lia)), (H2' fuel ltac:(lia)). reflexivity.
Qed.

Lemma until_app {A} (f : A -> bool) l1 l2 : until_interrupt f (l1 ++ l2) =
  if existsb f l1 then until_interrupt f l1 else until_interrupt f l1 ++ until_interrupt f l2.
Proof using All.
  clear. induction l1 as [|x l1 IH]; [reflexivity|]. cbn. destruct (f x); cbn; [reflexivity|]. rewrite IH. now destruct (existsb f l1).
Qed.

Lemma main_loop run ps algos :
  Forall proper_problem ps -> (forall p a, In p ps -> In a algos -> proper_outcome (p_N p) (run a p)) -> Forall (printable o) ps ->
  exists fuel0 reports, Forall2 (job_report eps o run) (until_interrupt (stops o run) (list_prod ps algos)) reports /\
    forall fuel, (fuel0 <= fuel)%nat ->
      main eps o run ps algos fuel = (reports, if existsb (stops o run) (list_prod ps algos) then Stopped else AllDone).
Proof using All.
  intros Hps Ho Hpr. unfold main.
  assert (G : exists fuel0 reports, Forall2 (job_report eps o run) (until_interrupt (stops o run) (list_prod ps algos)) reports /\
    forall fuel, (fuel0 <= fuel)%nat -> forall data,
      run_problems eps o run ps algos fuel data = (reports, if existsb (stops o run) (list_prod ps algos) then Stopped else AllDone)).
  { induction ps as [|p ps IH]; [exists 0%nat, []; split; [constructor|reflexivity]|].
    inversion Hps as [|? ? Hp Hps']; inversion Hpr as [|? ? Hq Hpr']; subst.
    destruct (algos_run p run algos Hp (fun a Ha => Ho p a (or_introl eq_refl) Ha) Hq) as (f1 & r1 & HF1 & H1).
    destruct (IH Hps' (fun p' a Hp' => Ho p' a (or_intror Hp')) Hpr') as (f2 & r2 & HF2 & H2).
    cbn [list_prod]. rewrite until_app, existsb_app. destruct (existsb (stops o run) (map (pair p) algos)) eqn:E.
    - exists f1, r1. split; [exact HF1|]. intros fuel Hfu data. cbn [run_problems orb]. destruct (H1 data) as (d1 & H1').
      rewrite (H1' fuel Hfu). reflexivity.
    - exists (Nat.max f1 f2), (r1 ++ r2). split; [now apply Forall2_app|]. intros fuel Hfu data. cbn [run_problems orb].
      destruct (H1 data) as (d1 & H1'). rewrite (H1' fuel ltac:(lia)). rewrite (H2 fuel ltac:(lia) d1). reflexivity. }
  destruct G as (fuel0 & reports & HF & H). exists fuel0, reports. split; [exact HF|]. intros fuel Hfu. now apply H.
Qed.
End Main.
