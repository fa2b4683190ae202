(** * Cheapest insertion: a run that does not follow the rule when distances are not metric *)
From Verif Require Import Spec Spec_inter Spec_savings Spec_cins PyBase M_util M_intra M_psavings M_cins P_base.
From Coq Require Import ZifyBool ZifyNat Lia.

Definition detour_D : matrix := fun i j =>
  match i, j with
  | 0, 1 | 1, 0 => 50%Z | 0, 2 | 2, 0 => 10%Z | 1, 2 | 2, 1 => 10%Z | 0, 3 | 3, 0 => 30%Z | 1, 3 | 3, 1 => 40%Z | 2, 3 | 3, 2 => 1000%Z
  | _, _ => 0%Z
  end%nat.
Definition detour_strain := param_criteria 1 1 0 detour_D.
Notation builds := (built_by_rule 4 detour_D (fun _ => 0) None (Some 105) 0 0 false detour_strain (begin_farthest detour_D)).
Notation adm := (admissible 4 detour_D (fun _ => 0) None (Some 105) 0 0 false).

Definition reached (s : ci_state) : Prop :=
  ci_done s = [] /\ ci_turn s = 0%nat /\ exists r, ci_open s = [r] /\ In r [[1]; [2; 1]; [1; 2]; [2; 1; 3]; [3; 1; 2]]%nat.

Lemma adm_cases r p j : In r [[1]; [2; 1]; [1; 2]; [2; 1; 3]; [3; 1; 2]]%nat -> adm [r] r p j ->
  In (insert_at p j r) [[1]; [2; 1]; [1; 2]; [2; 1; 3]; [3; 1; 2]]%nat.
Proof.
  intros Hr ([Hj Hin] & Hp & [_ HL] & _). cbn [concat] in Hin. rewrite app_nil_r in Hin.
  assert (J : j = 1%nat \/ j = 2%nat \/ j = 3%nat) by lia.
  repeat (destruct Hr as [<-|Hr]; [|]); [..|easy]; cbn [length] in Hp;
  (assert (P : p = 0%nat \/ p = 1%nat \/ p = 2%nat \/ p = 3%nat) by lia);
  destruct J as [->|[->| ->]]; destruct P as [->|[->|[->| ->]]]; try lia;
  try (exfalso; apply Hin; cbn; tauto); try (exfalso; vm_compute in HL; apply HL; [discriminate|reflexivity]); unfold insert_at; cbn [firstn skipn app In]; auto 10.
Qed.
Lemma full_cases r : In r [[1]; [2; 1]; [1; 2]; [2; 1; 3]; [3; 1; 2]]%nat -> full 4 detour_D (fun _ => 0) None (Some 105) 0 0 false [r] r ->
  forall j, ~ ci_free 4 [r] j.
Proof.
  intros Hr F j [Hj Hin]. assert (J : j = 1%nat \/ j = 2%nat \/ j = 3%nat) by lia. cbn [concat] in Hin. rewrite app_nil_r in Hin.
  assert (A : forall p c, (1 <= c < 4)%nat -> ~ In c r -> (p <= length r)%nat -> within (Some 105) 0 (route_cost detour_D (insert_at p c r)) ->
            extra_cost detour_D r p c <= route_cost detour_D [c] -> False).
  { intros p c H1 H2 H3 H4 H5. apply (F p c). split; [split; [lia|cbn; rewrite app_nil_r; exact H2]|]. split; [exact H3|]. split; [split; [exact I|exact H4]|]. right. exact H5. }
  repeat (destruct Hr as [<-|Hr]; [|]); [..|easy].
  - apply (A 0%nat 2%nat); [lia|cbn; lia|cbn; lia|vm_compute; intros _; discriminate|vm_compute; discriminate].
  - apply (A 2%nat 3%nat); [lia|cbn; lia|cbn; lia|vm_compute; intros _; discriminate|vm_compute; discriminate].
  - apply (A 0%nat 3%nat); [lia|cbn; lia|cbn; lia|vm_compute; intros _; discriminate|vm_compute; discriminate].
  - apply Hin. cbn. lia.
  - apply Hin. cbn. lia.
Qed.

Lemma reached_step s s' : reached s -> ci_rule 4 detour_D (fun _ => 0) None (Some 105) 0 0 false detour_strain (begin_farthest detour_D) s s' -> reached s'.
Proof.
  intros (Hd & Ht & r0 & Ho & Hr) H. destruct H as [r p j E B|r b E F B|r p j b E A rs F B]; rewrite Ho, Ht in E; cbn in E; injection E as <-; unfold ci_routes in *; rewrite Hd, Ho in *.
  - destruct B as [B _]. cbn [app] in B. apply adm_cases in B; [|exact Hr]. split; [reflexivity|]. cbn. unfold turn_after. rewrite Ho, Ht. cbn. split; [reflexivity|]. exists (insert_at p j r0). split; [reflexivity|exact B].
  - exfalso. cbn [app] in *. destruct B as (i & _ & Hf & _). exact (full_cases r0 Hr F i Hf).
  - exfalso. destruct A as [A _]. cbn [app] in A. apply adm_cases in A; [|exact Hr]. subst rs. rewrite Ht in *. cbn [replace firstn skipn app] in *. unfold replace in *. cbn [firstn skipn app] in *.
    rewrite Ho, Hd in *. cbn [app] in *. destruct B as (i & _ & Hf & _). exact (full_cases _ A F i Hf).
Qed.

Lemma detour_one_route rs : builds 1%nat rs -> length rs = 1%nat.
Proof.
  intros (b & s & Hb & Bg & St & _ & ->).
  assert (R : reached s).
  { induction St as [|s1 s2 _ IH H]; [|eapply reached_step; eauto].
    split; [reflexivity|]. split; [reflexivity|]. inversion Bg as [E|rs b0 B0 Hs E]; subst; [discriminate|]. rewrite app_length in Hb. cbn in Hb.
    destruct rs as [|? ?]; [|cbn in Hb; lia]. exists b0. split; [reflexivity|]. destruct Hs as (i & -> & [Hi _] & Hm). left. f_equal.
    assert (J : i = 1%nat \/ i = 2%nat \/ i = 3%nat) by lia. destruct J as [->|[->| ->]]; [reflexivity|exfalso..].
    - specialize (Hm 1%nat). assert (X : 50 <= 10) by (apply Hm; split; [lia|easy]). lia.
    - specialize (Hm 1%nat). assert (X : 50 <= 30) by (apply Hm; split; [lia|easy]). lia. }
  destruct R as (Hd & _ & r & Ho & _). unfold ci_routes. rewrite Hd, Ho. reflexivity.
Qed.
Lemma detour_refuted : exists pts, cheapest_insertion_init 0 0 4 detour_D (fun _ => 0) None (Some 105) false 1 Farthest detour_strain Z.of_nat 4
    = Some (Solution (encode [[3]; [2; 1]]%nat), pts) /\ ~ builds 1%nat [[3]; [2; 1]]%nat.
Proof. eexists. split; [vm_compute; reflexivity|]. intro H. apply detour_one_route in H. discriminate. Qed.
