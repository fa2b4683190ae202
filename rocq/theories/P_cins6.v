(** * Cheapest insertion: the statements of the theorems *)
From Verif Require Import Spec Spec_inter Spec_savings Spec_cins PyBase M_util M_intra M_psavings M_cins Spec_cins2 P_base P_cins P_cins2 P_cins3 P_cins4.
From Coq Require Import ZifyBool ZifyNat Lia.

Lemma single_seeds_ok N D m strain : single_seeds D m strain -> singles (seed_list N D strain m).
Proof. intros [H|(den & ln & mn & H1 & H2 & H3 & (H4 & H5 & H6) & ->)]; [apply singles_plain, H|apply singles_metric; assumption]. Qed.

Lemma cins_everyone ceps seps N D d C L minimize_K K m strain ident fuel : d 0%nat = 0 -> (1 <= K)%nat -> (N <= fuel)%nat ->
  exists o pts, cheapest_insertion_init ceps seps N D d C L minimize_K K m strain ident fuel = Some (o, pts) /\
    (o = RanOutOfSeeds \/ exists rs, o = Solution (encode rs) /\ covers N rs /\ Forall (fun r => r <> []) rs).
Proof.
  intros H0 H1 H2. destruct (cins_spec ceps seps N D d C L minimize_K H0 K m strain ident fuel H1 H2) as [(rs & pts & E & (A1 & A2 & _) & _)|[E _]].
  - exists (Solution (encode rs)), pts. split; [exact E|]. right. exists rs. auto.
  - exists RanOutOfSeeds, []. auto.
Qed.
Lemma cins_feasible ceps seps N D d C L minimize_K K m strain ident fuel : d 0%nat = 0 -> single_seeds D m strain ->
  served_alone N D d C L ceps seps -> (1 <= K < N)%nat -> (N <= fuel)%nat ->
  exists rs pts, cheapest_insertion_init ceps seps N D d C L minimize_K K m strain ident fuel = Some (Solution (encode rs), pts) /\
    serves N D d C L ceps seps rs /\ (K <= length rs)%nat.
Proof.
  intros H0 Hs Ha H1 H2. assert (Sg := single_seeds_ok N D m strain Hs).
  destruct (cins_spec ceps seps N D d C L minimize_K H0 K m strain ident fuel (proj1 H1) H2) as [(rs & pts & E & (A1 & A2 & A3 & A4) & _)|[E A]].
  - exists rs, pts. split; [exact E|]. split; [|exact A4]. split; [exact A1|]. split; [exact A2|]. apply A3; assumption.
  - specialize (A Sg). lia.
Qed.
Lemma cins_too_many ceps seps N D d C L minimize_K K m strain ident fuel : d 0%nat = 0 -> single_seeds D m strain ->
  (1 <= K)%nat -> (N <= K)%nat -> (N <= fuel)%nat ->
  cheapest_insertion_init ceps seps N D d C L minimize_K K m strain ident fuel = Some (RanOutOfSeeds, []).
Proof.
  intros H0 Hs H1 H2 H3. assert (Sg := single_seeds_ok N D m strain Hs).
  destruct (cins_spec ceps seps N D d C L minimize_K H0 K m strain ident fuel H1 H3) as [(rs & pts & E & (A1 & A2 & A3 & A4) & _)|[E A]]; [|exact E].
  exfalso. assert (X := nonempty_length rs A2). rewrite (Permutation_length A1), seq_length in X. lia.
Qed.
Lemma cins_interrupted ceps seps N D d C L minimize_K K m strain ident fuel order o pts p s : d 0%nat = 0 -> (1 <= K)%nat -> (N <= fuel)%nat ->
  (forall l, Permutation (order l) l) ->
  cheapest_insertion_init ceps seps N D d C L minimize_K K m strain ident fuel = Some (o, pts) -> In (p, s) pts ->
  p <> RouteCompleted -> p <> SeedTaken ->
  exists rs, handler_sol order s = encode rs /\ covers N rs /\ Forall (fun r => r <> []) rs /\
    (single_seeds D m strain -> served_alone N D d C L ceps seps -> Forall (feasible D d C L ceps seps) rs).
Proof.
  intros H0 H1 H2 Ho E Hin Hp1 Hp2.
  destruct (cins_spec ceps seps N D d C L minimize_K H0 K m strain ident fuel H1 H2) as [(rs & pts' & E' & _ & P)|[E' _]]; rewrite E in E'; injection E' as -> ->; [|destruct Hin].
  assert (G : good_point p = true) by (destruct p; auto; congruence).
  destruct (handler_ok _ _ _ _ _ _ _ _ order s (P p s Hin G) Ho) as (rs' & A1 & A2 & A3 & A4).
  exists rs'. split; [exact A1|]. split; [exact A2|]. split; [exact A3|]. intro Hs. apply A4, single_seeds_ok, Hs.
Qed.
