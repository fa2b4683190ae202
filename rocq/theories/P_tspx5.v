(** * The fast TSP solver *)
From Verif Require Import PyBase M_text M_io M_intra M_rfcs M_tspg M_tspx P_tspg3 P_tspg4 P_tspx2 P_tspx4 P_rfcs3 P_intra2 Spec_ls Spec_tspx Spec_tspg Spec_rfcs Spec.
From Coq Require Import ZifyBool ZifyNat Lia List Permutation.
Import ListNotations.

Lemma fast_solver eps gurobi lkh N D : (0 <= eps)%Z -> tsp_honest gurobi -> tsp_patient gurobi -> lkh_writes_tours lkh -> symmetric D -> (forall i, D i i = 0%Z) ->
  exists fuel0, forall fuel, (fuel0 <= fuel)%nat -> solver N D (fast_tsp eps fuel gurobi lkh N D).
Proof.
  intros He HG HP HL HS H0. destruct (ropt_solver eps D N true true He HS) as (fuel0 & HR). exists fuel0. intros fuel Hf. destruct (HR fuel Hf) as [HR1 _]. destruct (gurobi_exact N D gurobi HG HP HS) as (HG1 & _ & _). pose proof (lkh_solver lkh N D HL HS H0) as HL1.
  intros l Hne Hn Hb. unfold fast_tsp, solve_tsp_fast. destruct (_ <? 5)%nat; [now apply HR1|]. destruct (_ <? 20)%nat; [now apply HG1|now apply HL1].
Qed.
(** 3-opt on four nodes leaves nothing better. *)
Lemma four_nodes D e r p eps : symmetric D -> (0 <= eps)%Z -> Permutation p r -> r <> [] -> (length r <= 3)%nat -> (forall t, three_opt_nbr (e :: r ++ [e]) t -> (path_cost D (e :: r ++ [e]) <= path_cost D t + eps)%Z) ->
  (path_cost D (e :: r ++ [e]) <= path_cost D (e :: p ++ [e]) + eps)%Z.
Proof.
  intros HS He P Hne Hl H3. destruct r as [|a [|b [|c [|? ?]]]]; [contradiction| | |cbn|cbn in Hl; lia].
  - apply Permutation_sym, Permutation_length_1_inv in P. subst. lia.
  - apply Permutation_sym, Permutation_length_2_inv in P. destruct P as [->| ->]; [lia|]. cbn. rewrite (HS e b), (HS b a), (HS a e). lia.
  - assert (T1 : three_opt_nbr [e; a; b; c; e] [e; b; a; c; e]) by (exists [e], [a], [b], [c; e]; repeat split; try discriminate; right; right; right; now left).
    assert (T2 : three_opt_nbr [e; a; b; c; e] [e; a; c; b; e]) by (exists [e; a], [b], [c], [e]; repeat split; try discriminate; right; right; right; now left).
    pose proof (H3 _ T1) as G1. pose proof (H3 _ T2) as G2. cbn in G1, G2.
    assert (Q : p = [a; b; c] \/ p = [a; c; b] \/ p = [b; a; c] \/ p = [b; c; a] \/ p = [c; a; b] \/ p = [c; b; a]).
    { assert (Ia : In a p) by (apply (Permutation_in _ (Permutation_sym P)); now left). destruct (in_split _ _ Ia) as (l1 & l2 & ->). assert (P2 : Permutation (l1 ++ l2) [b; c]) by (apply (Permutation_cons_inv (a := a)); rewrite <- P; apply Permutation_middle).
      apply Permutation_sym, Permutation_length_2_inv in P2. destruct l1 as [|x [|y [|z l1]]]; cbn [app] in *; destruct P2 as [E|E]; try discriminate; try (injection E as ->; subst; tauto); try (injection E as -> ->; subst; tauto).
      - subst. tauto.
      - subst. tauto. }
    pose proof (HS e a). pose proof (HS e b). pose proof (HS e c). pose proof (HS a b). pose proof (HS a c). pose proof (HS b c). destruct Q as [->|[->|[->|[->|[->| ->]]]]]; cbn; lia.
Qed.

Lemma fast_near eps gurobi lkh N D : (0 <= eps)%Z -> tsp_honest gurobi -> tsp_patient gurobi -> symmetric D -> (forall i, D i i = 0%Z) ->
  forall l, l <> [] -> NoDup l -> (forall j, In j l -> (1 <= j < N)%nat) -> (length l < 19)%nat \/ lkh_optimal lkh ->
  exists fuel0, forall fuel, (fuel0 <= fuel)%nat -> forall p, Permutation p l -> (snd (fast_tsp eps fuel gurobi lkh N D (0%nat :: l)) <= route_cost D p + eps)%Z.
Proof.
  intros He HG HP HS H0 l Hne Hn Hb Hopt. unfold fast_tsp, solve_tsp_fast. cbn [length]. destruct (Nat.ltb_spec (S (length l)) 5) as [G|G].
  - assert (Hn0 : NoDup (0%nat :: l)) by (constructor; [intros H; specialize (Hb _ H); lia|exact Hn]).
    destruct (solve_tsp_tour eps D 0%nat l None true true He HS Hn0 Hne) as (fuel0 & HT). exists fuel0. intros fuel Hf p P. destruct (HT fuel Hf) as (r & E & Pr & _ & H3 & _). unfold as_tsp. rewrite E. cbn [snd].
    apply four_nodes; [exact HS|exact He|now rewrite P, Pr|intros ->; apply Permutation_nil in Pr; contradiction|rewrite (Permutation_length Pr); lia|now apply H3].
  - exists 0%nat. intros fuel _ p P. destruct (Nat.ltb_spec (S (length l)) 20) as [G2|G2].
    + destruct (gurobi_exact N D gurobi HG HP HS) as (_ & _ & HE). specialize (HE l p Hne Hn Hb P). lia.
    + destruct Hopt as [Hl|HL]; [lia|]. pose proof (lkh_exact_solver lkh N D HL HS H0 l p Hne Hn Hb P). lia.
Qed.
Definition fast_case_result := fast_tsp 0 20 try_tours try_lkh 4 Dsq [0; 2; 1; 3]%nat.
Lemma fast_case : fast_case_result = ([0; 1; 2; 3; 0]%nat, 80%Z).
Proof. vm_compute. reflexivity. Qed.
