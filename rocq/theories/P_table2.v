(** * Proofs about the table of results: complete runs *)
From Verif Require Import Spec Spec_driver PyBase M_text M_cvrp_ops M_cli Spec_cli P_cli3 M_cli2 M_table Spec_table P_table.
From Coq Require Import ZifyBool ZifyNat Lia Arith List Permutation Sorting.Sorted.
Import ListNotations.
Local Open Scope Z_scope.

(** A job's algorithm finds a solution. *)
Definition finds (run : nat -> problem -> algo_outcome) (p : problem) (a : nat) : Prop := exists x s, found (run a p) = Some (x :: s).

Lemma job_keys eps o run bn an : forall jobs reports, Forall2 (job_report eps o run) jobs reports ->
  map (fun j => (bn (p_file (fst j)), an (snd j))) jobs = map (fun r => (the_file bn r, the_algo an r)) reports.
Proof.
  induction 1 as [|[p a] r jobs reports H HF IH]; [reflexivity|]. cbn [map fst snd]. rewrite IH. f_equal. unfold job_report in H.
  destruct (o_simulate o); [subst r; reflexivity|]. destruct (found (run a p)) as [[|x s]|]; try (subst r; reflexivity).
  destruct H as (rs & _ & _ & ns & ok & -> & _). reflexivity.
Qed.
Lemma job_found eps o run : o_simulate o = false -> forall jobs reports, Forall2 (job_report eps o run) jobs reports ->
  forall p a, In (p, a) jobs -> finds run p a -> exists sol ok q K st, In (Solved (p_file p) a sol ok q K st) reports.
Proof.
  intros Hs. induction 1 as [|[p' a'] r jobs reports H HF IH]; intros p a Hin Hf; [easy|]. destruct Hin as [E|Hin].
  - injection E as -> ->. unfold job_report in H. rewrite Hs in H. destruct Hf as (x & s & Ef). rewrite Ef in H.
    destruct H as (rs & _ & _ & ns & ok & -> & _). do 5 eexists. left. reflexivity.
  - destruct (IH p a Hin Hf) as (sol & ok & q & K & st & Hr). exists sol, ok, q, K, st. now right.
Qed.
Lemma until_none {A} (f : A -> bool) l : (forall x, In x l -> f x = false) -> until_interrupt f l = l /\ existsb f l = false.
Proof.
  induction l as [|x l IH]; intros H; [split; reflexivity|]. cbn [until_interrupt existsb]. rewrite (H x (or_introl eq_refl)).
  destruct (IH (fun y Hy => H y (or_intror Hy))) as [-> ->]. split; reflexivity.
Qed.

Lemma reported_iff bn an rs f a : (exists r, In r rs /\ the_file bn r = f /\ the_algo an r = a) <-> exists v, reported bn an rs f a v.
Proof.
  split.
  - intros (r & Hr & <- & <-). exists (the_quality r). now apply reported_intro.
  - intros ([q|] & i & j & <- & <- & H).
    + destruct H as (sol & ok & K & st & H). eexists. split; [exact H|]. split; reflexivity.
    + destruct H as (st & H). eexists. split; [exact H|]. split; reflexivity.
Qed.
Lemma columns_iff bn an rs f ts : columns_of bn an rs f ts <-> columns bn an rs f ts.
Proof. split; intros (H1 & H2); (split; [exact H1|]); intros a; rewrite H2; [|symmetry]; apply reported_iff. Qed.
Lemma solved_iff bn rs f : solved_here bn rs f <-> solved bn rs f.
Proof.
  split.
  - intros (i & j & sol & ok & q & K & st & E & H). pose proof (proj2 (data_all bn bn rs) f) as D. destruct (get_item f (fold_left (add_instance bn) rs [])) as [K'|]; [now exists K'|].
    exfalso. exact (D i j sol ok q K st H E).
  - intros (K & (i & j & sol & ok & q & st & E & H) & _). now exists i, j, sol, ok, q, K, st.
Qed.

(** Whatever is reported, the rows are true, each for its own columns. *)
Lemma rows_true bn an eps o run ps algos fuel reports e t : verypy bn an eps o run ps algos fuel = (reports, e, Some t) ->
  exists names printed rest, alphabetical names /\ (forall f, In f names <-> exists a v, reported bn an reports f a v) /\
    names = printed ++ rest /\
    Forall2 (fun f row => exists ts, columns bn an reports f ts /\ true_row bn an reports ts f row) printed (t_rows t) /\
    match t_failed t with
    | None => rest = []
    | Some f => (exists rest', rest = f :: rest') /\ ~ solved bn reports f
    end /\
    match names with [] => t_titles t = [] | f :: _ => columns bn an reports f (t_titles t) end.
Proof.
  unfold verypy. destruct (main eps o run ps algos fuel) as [rs e'] eqn:EM.
  assert (Hcase : forall res, res = Some t -> collected_results bn an (o_minimal o) (length algos) rs = res -> o_minimal o = false /\ collected_results bn an false (length algos) rs = Some t).
  { intros res -> Hc. destruct (o_minimal o); [discriminate|]. split; [reflexivity|exact Hc]. }
  intros H. assert (HC : collected_results bn an (o_minimal o) (length algos) rs = Some t) by (destruct e'; injection H; congruence).
  assert (Er : rs = reports) by (injection H; congruence). subst rs. clear H. destruct (Hcase _ eq_refl HC) as (_ & HC'). clear Hcase HC.
  destruct (table_of_reports bn an reports (length algos)) as (names & HA & HI & HT0 & HT).
  destruct (le_lt_dec (length names) 1) as [Hn|Hn]; [destruct (le_lt_dec (length algos) 1) as [Ha|Ha]; [rewrite HT0 in HC' by assumption; discriminate|]|];
    (destruct HT as (t' & Et & Htit & Hrows); [tauto|]; rewrite HC' in Et; injection Et as <-;
     assert (HI' : forall f, In f names <-> exists a v, reported bn an reports f a v);
     [intros f; rewrite HI; split;
       [intros (r & Hr & Ef); exists (the_algo an r); apply reported_iff; now exists r
       |intros (a & Hv); apply reported_iff in Hv; destruct Hv as (r & Hr & Ef & _); now exists r]|];
     assert (Htit' : match names with [] => t_titles t = [] | f :: _ => columns bn an reports f (t_titles t) end);
     [destruct names as [|f0 l]; [exact Htit|]; now apply columns_iff|];
     assert (Hconv : forall l rows, Forall2 (fun f row => exists ts, columns_of bn an reports f ts /\ true_row bn an reports ts f row) l rows ->
        Forall2 (fun f row => exists ts, columns bn an reports f ts /\ true_row bn an reports ts f row) l rows);
     [intros l rows Hl; induction Hl as [|f row l rows (ts & H1 & H2) Hl IH]; constructor; [exists ts; split; [now apply columns_iff|exact H2]|exact IH]|];
     destruct (t_failed t) as [g|];
     [destruct Hrows as (l1 & l2 & -> & Hg & _ & HF); exists (l1 ++ g :: l2), l1, (g :: l2); split; [exact HA|]; split; [exact HI'|];
      split; [reflexivity|]; split; [now apply Hconv|]; split; [|exact Htit']; split; [now exists l2|]; rewrite <- solved_iff; exact Hg
     |destruct Hrows as (_ & HF); exists names, names, []; split; [exact HA|]; split; [exact HI'|]; split; [now rewrite app_nil_r|];
      split; [now apply Hconv|]; split; [reflexivity|exact Htit']]).
Qed.

(** ** Simulated runs *)
Lemma simulated_algos eps o run p : o_simulate o = true -> forall algos fuel data,
  run_algos eps o run p algos fuel data = (map (fun a => Unsolved (p_file p) a false) algos, AllDone, data).
Proof. intros Hs algos. induction algos as [|a algos IH]; intros fuel data; cbn [run_algos map]; [reflexivity|]. rewrite Hs. cbn [improve_solution]. rewrite IH. reflexivity. Qed.
Lemma simulated_main eps o run : o_simulate o = true -> forall ps algos fuel data,
  run_problems eps o run ps algos fuel data = (map (fun j => Unsolved (p_file (fst j)) (snd j) false) (list_prod ps algos), AllDone).
Proof.
  intros Hs ps. induction ps as [|p ps IH]; intros algos fuel data; cbn [run_problems list_prod map]; [reflexivity|]. rewrite (simulated_algos eps o run p Hs). rewrite IH.
  rewrite map_app, map_map. reflexivity.
Qed.
Lemma simulated_table bn an eps o run ps algos fuel : o_simulate o = true -> o_minimal o = false -> ps <> [] -> algos <> [] ->
  ((1 < length algos)%nat \/ exists p p', In p ps /\ In p' ps /\ bn (p_file p) <> bn (p_file p')) ->
  exists reports t f, verypy bn an eps o run ps algos fuel = (reports, AllDone, Some t) /\ t_rows t = [] /\ t_failed t = Some f.
Proof.
  intros Hs Hm Hp Ha Hmany. unfold verypy, main. rewrite (simulated_main eps o run Hs). rewrite Hm. set (reports := map _ (list_prod ps algos)).
  destruct (table_of_reports bn an reports (length algos)) as (names & HA & HI & _ & HT).
  assert (Hin : forall p, In p ps -> In (bn (p_file p)) names).
  { intros p Hip. apply HI. destruct algos as [|a l]; [easy|]. exists (Unsolved (p_file p) a false). split; [|reflexivity].
    apply in_map_iff. exists (p, a). split; [reflexivity|]. apply in_prod; [exact Hip|now left]. }
  destruct HT as (t & Et & _ & Hr).
  { destruct Hmany as [Hmany|(p & p' & H1 & H2 & Hne)]; [now right|left]. pose proof (Hin p H1) as I1. pose proof (Hin p' H2) as I2.
    destruct names as [|x [|y l]]; [easy| |cbn; lia]. destruct I1 as [I1|[]], I2 as [I2|[]]. congruence. }
  assert (Hno : forall f, ~ solved_here bn reports f).
  { intros f (i & j & sol & ok & q & K & st & _ & H). apply in_map_iff in H. destruct H as (x & H & _). discriminate. }
  destruct (t_failed t) as [g|] eqn:Eg.
  - exists reports, t, g. split; [now rewrite Et|]. split; [|exact Eg]. destruct Hr as (l1 & l2 & _ & _ & H1 & H2).
    destruct l1 as [|f l1]; [now inversion H2|]. exfalso. apply (Hno f), H1. now left.
  - exfalso. destruct Hr as (H1 & _). destruct ps as [|p ps']; [easy|]. apply (Hno (bn (p_file p))), H1, Hin. now left.
Qed.

Section Complete.
Variables (bn an : nat -> text) (eps : Z) (o : options) (run : nat -> problem -> algo_outcome) (ps : list problem) (algos : list nat).
Hypothesis Heps : 0 <= eps.
Hypothesis Hops : forall op, In op (o_ls o) -> (op <= 3)%nat.
Hypothesis Hps : Forall proper_problem ps.
Hypothesis Hout : forall p a, In p ps -> In a algos -> proper_outcome (p_N p) (run a p).
Hypothesis Hpr : Forall (printable o) ps.
Hypothesis Hmin : o_minimal o = false.
Hypothesis Hbn : NoDup (map (fun p => bn (p_file p)) ps).
Hypothesis Han : NoDup (map an algos).
Hypothesis Hmany : (1 < length ps /\ algos <> [])%nat \/ (ps <> [] /\ (1 < length algos)%nat).

(** The columns and the names of the rows *)
Lemma names_of_jobs reports : Forall2 (job_report eps o run) (list_prod ps algos) reports ->
  (forall f a, (exists r, In r reports /\ the_file bn r = f /\ the_algo an r = a) <-> In f (map (fun p => bn (p_file p)) ps) /\ In a (map an algos)).
Proof.
  intros HF f a. pose proof (job_keys eps o run bn an _ _ HF) as HK. split.
  - intros (r & Hr & Ef & Ea). assert (Hin : In (f, a) (map (fun r => (the_file bn r, the_algo an r)) reports)) by (apply in_map_iff; exists r; now rewrite Ef, Ea).
    rewrite <- HK in Hin. apply in_map_iff in Hin. destruct Hin as ([p b] & E & Hin). cbn [fst snd] in E. injection E as <- <-.
    apply in_prod_iff in Hin. split; apply in_map_iff; [now exists p|now exists b].
  - intros (H1 & H2). apply in_map_iff in H1, H2. destruct H1 as (p & <- & Hp). destruct H2 as (b & <- & Hb).
    assert (Hin : In (bn (p_file p), an b) (map (fun j => (bn (p_file (fst j)), an (snd j))) (list_prod ps algos))).
    { apply in_map_iff. exists (p, b). split; [reflexivity|]. now apply in_prod. }
    rewrite HK in Hin. apply in_map_iff in Hin. destruct Hin as (r & E & Hr). injection E as Ef Ea. now exists r.
Qed.

Lemma complete_table : o_simulate o = false ->
  (forall p a, In p ps -> In a algos -> interrupted (run a p) = false) ->
  (forall p, In p ps -> exists a, In a algos /\ finds run p a) ->
  exists fuel0 reports titles names rows,
    Forall2 (job_report eps o run) (list_prod ps algos) reports /\
    alphabetical titles /\ Permutation titles (map an algos) /\
    alphabetical names /\ Permutation names (map (fun p => bn (p_file p)) ps) /\
    Forall2 (true_row bn an reports titles) names rows /\
    forall fuel, (fuel0 <= fuel)%nat -> verypy bn an eps o run ps algos fuel = (reports, AllDone, Some (mkt titles rows None)).
Proof.
  intros Hsim Hint Hsol.
  destruct (main_loop eps o Heps Hops run ps algos Hps Hout Hpr) as (fuel0 & reports & HF & HM).
  assert (Hu : until_interrupt (stops o run) (list_prod ps algos) = list_prod ps algos /\ existsb (stops o run) (list_prod ps algos) = false).
  { apply until_none. intros [p a] Hin. apply in_prod_iff in Hin. unfold stops. cbn [fst snd]. rewrite Hint by tauto. apply Bool.andb_false_r. }
  destruct Hu as [Hu1 Hu2]. rewrite Hu1 in HF. rewrite Hu2 in HM.
  pose proof (names_of_jobs reports HF) as HN.
  destruct (table_of_reports bn an reports (length algos)) as (names & HA & HI & _ & HT).
  assert (Hne : algos <> [] /\ ps <> []) by (destruct Hmany as [(H1 & H2)|(H1 & H2)]; split; try easy; intros ->; cbn in *; lia).
  assert (HP : Permutation names (map (fun p => bn (p_file p)) ps)).
  { apply NoDup_Permutation; [now apply alphabetical_nodup|exact Hbn|]. intros f. rewrite HI. split.
    - intros (r & Hr & Ef). apply (HN f (the_algo an r)). now exists r.
    - intros Hf. destruct algos as [|a0 l] eqn:Ea; [easy|]. destruct (proj2 (HN f (an a0))) as (r & Hr & Ef & _); [split; [exact Hf|now left]|]. now exists r. }
  destruct HT as (t & Et & Htit & Hrows).
  { rewrite (Permutation_length HP), map_length. tauto. }
  assert (HS : forall f, In f names -> solved_here bn reports f).
  { intros f Hf. apply (Permutation_in _ HP) in Hf. apply in_map_iff in Hf. destruct Hf as (p & <- & Hp). destruct (Hsol p Hp) as (a & Ha & Hfind).
    destruct (job_found eps o run Hsim _ _ HF p a (proj2 (in_prod_iff _ _ _ _) (conj Hp Ha)) Hfind) as (sol & ok & q & K & st & Hr).
    exists (p_file p), a, sol, ok, q, K, st. split; [reflexivity|exact Hr]. }
  assert (Hcol : forall f, In f names -> forall ts, columns_of bn an reports f ts -> Permutation ts (map an algos)).
  { intros f Hf ts (H1 & H2). apply NoDup_Permutation; [now apply alphabetical_nodup|exact Han|]. intros a. rewrite H2, HN. split; [tauto|].
    intros Ha. split; [|exact Ha]. exact (Permutation_in _ HP Hf). }
  assert (Hf0 : exists f0, In f0 names /\ columns_of bn an reports f0 (t_titles t)).
  { destruct names as [|f0 names0]; [exfalso; apply Permutation_nil in HP; destruct ps; [easy|discriminate]|]. exists f0. split; [now left|exact Htit]. }
  destruct Hf0 as (f0 & Hf0 & Hcol0).
  assert (Hcol' : forall f, In f names -> forall ts, columns_of bn an reports f ts -> ts = t_titles t).
  { intros f Hf ts Hts. apply alphabetical_unique; [apply Hts|apply Hcol0|]. intros a.
    rewrite (Permutation_in' (eq_refl a) (Hcol f Hf ts Hts)), (Permutation_in' (eq_refl a) (Hcol f0 Hf0 _ Hcol0)). reflexivity. }
  destruct (t_failed t) as [g|] eqn:Eg.
  { exfalso. destruct Hrows as (l1 & l2 & -> & Hg & _). apply Hg, HS. apply in_or_app. right. now left. }
  exists fuel0, reports, (t_titles t), names, (t_rows t). split; [exact HF|]. split; [apply Hcol0|]. split; [now apply (Hcol f0)|].
  split; [exact HA|]. split; [exact HP|]. split.
  - destruct Hrows as (_ & Hrows). revert Hcol' Hrows. clear. intros Hcol' Hrows.
    assert (G : forall l rows, (forall f, In f l -> In f names) -> Forall2 (fun f row => exists ts, columns_of bn an reports f ts /\ true_row bn an reports ts f row) l rows ->
                Forall2 (true_row bn an reports (t_titles t)) l rows).
    { intros l rows Hl H. induction H as [|f row l rows (ts & H1 & H2) HF IH]; constructor.
      - now rewrite <- (Hcol' f (Hl f (or_introl eq_refl)) ts H1).
      - apply IH. intros f' Hf'. apply Hl. now right. }
    now apply G.
  - intros fuel Hfuel. unfold verypy. rewrite (HM fuel Hfuel). rewrite Hmin, Et. do 2 f_equal. destruct t as [tt tr tf]. cbn in *. now subst tf.
Qed.
End Complete.
