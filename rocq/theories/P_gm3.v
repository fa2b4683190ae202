(** * Gillett and Miller's sweep: what it returns when it ends *)
From Verif Require Import Spec Spec_rfcs Spec_inter Spec_savings Spec_sweep PyBase P_base M_util M_psavings M_ssavings M_savfam M_nn M_sweep M_gm P_sweep P_sweep2 P_sweep3 P_ssavings P_gm P_gm2.
From Coq Require Import ZifyBool ZifyNat Lia Arith List Permutation.
Import ListNotations.
Local Open Scope Z_scope.

Section Mono.
Variables ceps seps : Z.
Variable D : matrix.
Variable d : demands.
Variables C L : limit.
Variable f : routing.
Variable order : list nat.
Variable ccw : bool.
Variable callback : swroute -> nat -> (nat -> bool) -> callback_result.
Lemma gm_iter_mono fuel k st x : gm_iter ceps seps D d C L f order ccw callback fuel st = Some x -> gm_iter ceps seps D d C L f order ccw callback (fuel + k) st = Some x.
Proof.
  unfold gm_iter. match goal with |- context [let '(b, c) := ?m in _] => destruct m as (bound1, complete2) end.
  destruct complete2; [|trivial]. destruct (is_set L); [|trivial].
  destruct (ensure_L seps d C L f order ccw fuel _ _ _ _) as [[[p r] routed]|] eqn:E; [|discriminate].
  rewrite (ensure_mono _ _ _ _ _ _ _ _ k _ _ _ _ _ E). trivial.
Qed.
Lemma gm_loop_mono : forall fuel fuelL k st x, gm_loop ceps seps D d C L f order ccw callback fuelL fuel st = Some x ->
  gm_loop ceps seps D d C L f order ccw callback (fuelL + k) (fuel + k) st = Some x.
Proof.
  induction fuel as [|fuel IH]; intros fuelL k st x H; [discriminate|]. cbn [Nat.add gm_loop] in *.
  destruct (gm_iter ceps seps D d C L f order ccw callback fuelL st) as [[routes|st']|] eqn:E; [| |discriminate]; rewrite (gm_iter_mono _ k _ _ E).
  - exact H.
  - apply IH, H.
Qed.
Lemma gm_sweep_mono fuel fuel' start x : (fuel <= fuel')%nat -> gm_one_sweep ceps seps D d C L f order ccw callback start fuel = Some x ->
  gm_one_sweep ceps seps D d C L f order ccw callback start fuel' = Some x.
Proof.
  intros Hle. unfold gm_one_sweep. destruct (nth_error order start); [|trivial]. intros H.
  destruct (gm_loop ceps seps D d C L f order ccw callback fuel fuel _) as [r|] eqn:E; [|discriminate].
  replace fuel' with (fuel + (fuel' - fuel))%nat by lia. rewrite (gm_loop_mono _ _ _ _ _ E). exact H.
Qed.
End Mono.

Section Safe.
Variables ceps seps : Z.
Variable N : nat.
Variable D : matrix.
Variable d : demands.
Variables C L : limit.
Variable f : routing.
Variable order : list nat.
Variable ccw : bool.
Variable callback : swroute -> nat -> (nat -> bool) -> callback_result.
Hypothesis Hf : solver N D f.
Hypothesis Halone : served_alone N D d C L ceps seps.
Hypothesis Hnd : NoDup order.
Hypothesis Hcust : forall x, In x order -> (1 <= x < N)%nat.
Hypothesis Hd : forall i, (1 <= i < N)%nat -> 0 <= d i.
Notation len := (length order).
Hypothesis Hcb : forall routed r pos, (pos < len)%nat -> sr_set r <> [] -> NoDup (sr_set r) -> incl (sr_set r) order ->
  carries d C r -> (forall x, In x (sr_set r) -> routed x = true) -> routed 0%nat = true ->
  contract ceps seps D d C L order f routed r (node_at order pos) (callback r pos routed).
Notation gm_inv := (gm_inv ceps seps D d C L order).

Definition gm_start (start n : nat) : gmstate := mkgm (mksw start (Some n) [] (fun x => Nat.eqb x 0) 0 sr_new 0 false) [].
Lemma start_inv start n : nth_error order start = Some n -> gm_inv (gm_start start n) [].
Proof using Hcust.
  clear Hd Hcb Halone Hf callback. intros E. constructor; unfold gm_start; cbn [gm_sw gm_blocked sw_routes sw_routed sw_count sw_current sw_pos sw_node sw_complete].
  - constructor; cbn [concat sr_set sr_new app].
    + constructor.
    + constructor.
    + intros x [].
    + intros x Hx. apply Hcust in Hx. cbn. destruct x; [lia|reflexivity].
    + reflexivity.
    + intros _. reflexivity.
    + easy.
  - reflexivity.
  - apply nth_error_Some. congruence.
  - split; [reflexivity|]. split; [unfold node_at; symmetry; exact (nth_error_nth order start 0%nat E)|]. split; intros [].
  - reflexivity.
Qed.

Lemma gm_loop_safe fuelL : (len * S len <= fuelL)%nat -> forall fuel gst rs routes, gm_inv gst rs ->
  gm_loop ceps seps D d C L f order ccw callback fuelL fuel gst = Some routes -> sw_done ceps seps D d C L order routes.
Proof using Hf Halone Hnd Hcust Hd Hcb.
  intros HfL. induction fuel as [|fuel IH]; intros gst rs routes HI E; [discriminate|]. cbn [gm_loop] in E.
  destruct (iter_cases ceps seps N D d C L f order ccw callback Hf Halone Hnd Hcust Hd Hcb fuelL gst rs HfL HI) as [(rts & E1 & H1)|(g & E1 & H1)]; rewrite E1 in E.
  - injection E as <-. exact H1.
  - destruct (cases_inv ceps seps N D d C L f order ccw Halone Hnd Hcust fuelL gst rs g HI H1) as (rs' & HI').
    exact (IH g rs' routes HI' E).
Qed.
Lemma gm_sweep_safe start fuel routes : gm_one_sweep ceps seps D d C L f order ccw callback start fuel = Some (Some routes) -> sw_done ceps seps D d C L order routes.
Proof using Hf Halone Hnd Hcust Hd Hcb.
  intros H. apply (gm_sweep_mono ceps seps D d C L f order ccw callback fuel (fuel + len * S len)) in H; [|lia].
  unfold gm_one_sweep in H. destruct (nth_error order start) as [n|] eqn:E; [|discriminate].
  destruct (gm_loop _ _ _ _ _ _ _ _ _ _ _ _ _) as [r|] eqn:El; [|discriminate]. injection H as <-.
  refine (gm_loop_safe _ _ _ _ _ _ (start_inv start n E) El). lia.
Qed.
End Safe.
