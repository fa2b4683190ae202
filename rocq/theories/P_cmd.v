(** * The command lines of the heuristics *)
From Verif Require Import Spec PyBase M_text M_cli2 M_cmd Spec_cli2 Spec_cmd.
From Coq Require Import ZifyBool ZifyNat Lia Arith List.
Import ListNotations.
Local Open Scope Z_scope.

Lemma teq (a b : text) : text_eqb a b = true <-> a = b.
Proof. unfold text_eqb. destruct (list_eq_dec ascii_dec a b); split; intros; congruence. Qed.
Lemma tneq (a b : text) : a <> b -> text_eqb a b = false.
Proof. intros H. destruct (text_eqb a b) eqn:E; [|reflexivity]. now apply teq in E. Qed.
Lemma teq_refl (a : text) : text_eqb a a = true.
Proof. now apply teq. Qed.

Lemma is_digit_spec c : is_digit c = true <-> exists k, (k <= 9)%nat /\ c = ascii_of_nat (48 + k).
Proof.
  unfold is_digit. split.
  - intros H. apply andb_true_iff in H. destruct H as [H1 H2]. apply Nat.leb_le in H1, H2. exists (nat_of_ascii c - 48)%nat. split; [lia|].
    replace (48 + (nat_of_ascii c - 48))%nat with (nat_of_ascii c) by lia. now rewrite ascii_nat_embedding.
  - intros (k & Hk & ->). rewrite nat_ascii_embedding by lia. apply andb_true_iff. split; apply Nat.leb_le; lia.
Qed.
Lemma isdigit_number s : isdigit s = true <-> number s.
Proof.
  unfold isdigit, number. destruct s as [|c t].
  - split; [discriminate|intros [H _]; congruence].
  - rewrite forallb_forall. split.
    + intros H. split; [discriminate|]. intros x Hx. now apply is_digit_spec, H.
    + intros [_ H] x Hx. now apply is_digit_spec, H.
Qed.
Lemma digit_of k : (k <= 9)%nat -> digit (ascii_of_nat (48 + k)) = Z.of_nat k.
Proof. intros H. unfold digit. rewrite nat_ascii_embedding by lia. lia. Qed.
Lemma int_value s : (forall c, In c s -> exists k, (k <= 9)%nat /\ c = ascii_of_nat (48 + k)) -> value s (int_of_digits s).
Proof.
  induction s as [|c s IH] using rev_ind; intros H; [constructor|]. destruct (H c) as (k & Hk & ->); [apply in_or_app; right; now left|].
  unfold int_of_digits. rewrite fold_left_app. cbn [fold_left]. rewrite digit_of by exact Hk. apply value_digit; [exact Hk|].
  apply IH. intros x Hx. apply H, in_or_app. now left.
Qed.
Lemma number_value s : number s -> value s (int_of_digits s).
Proof. intros [_ H]. now apply int_value. Qed.
Lemma value_unique s n : value s n -> n = int_of_digits s.
Proof.
  intros H. induction H as [|s n k Hk H IH]; [reflexivity|]. unfold int_of_digits. rewrite fold_left_app. cbn [fold_left].
  rewrite digit_of by exact Hk. fold (int_of_digits s). now rewrite <- IH.
Qed.

Lemma not_option o a b : ~ In a option_names -> read_option o a b = o.
Proof.
  intros H. unfold read_option. cbn [In option_names] in H.
  rewrite !tneq by (intros ->; apply H; tauto). cbn [andb]. now destruct o.
Qed.
Lemma number_no_option n : number n -> ~ In n option_names.
Proof.
  intros [_ H] Hi. assert (Hd : In "-"%char n) by (cbn in Hi; repeat (destruct Hi as [<-|Hi]; [now left|]); destruct Hi).
  apply H in Hd. destruct Hd as (k & Hk & E). apply (f_equal nat_of_ascii) in E. rewrite nat_ascii_embedding in E by lia. cbn in E. lia.
Qed.
Lemma target_no_option t : In (lower t) [str "cost"; str "c"; str "vehicles"; str "k"] -> ~ In t option_names.
Proof.
  intros H Hi. assert (H' : In (lower t) (map lower option_names)) by now apply in_map. revert H H'. generalize (lower t). intros s H H'.
  cbn in H, H'. repeat (destruct H as [<-|H]; [repeat (destruct H' as [H'|H']; [discriminate H'|]); destruct H'|]). destruct H.
Qed.

(** What an option does *)
Definition set_option (o : settings) (g : given) : settings :=
  match g with
  | Verbosity n => mkset (int_of_digits n) (op_best_of_n o) (op_single o) (op_time o) (op_log o) (op_minimize_K o)
  | Runs n => mkset (op_verbosity o) (int_of_digits n) (op_single o) (op_time o) (op_log o) (op_minimize_K o)
  | Single => mkset (op_verbosity o) (op_best_of_n o) true (op_time o) (op_log o) (op_minimize_K o)
  | Timing => mkset (op_verbosity o) (op_best_of_n o) (op_single o) true (op_log o) (op_minimize_K o)
  | LogFile f => mkset (op_verbosity o) (op_best_of_n o) (op_single o) (op_time o) (Some f) (op_minimize_K o)
  | Cost _ => mkset (op_verbosity o) (op_best_of_n o) (op_single o) (op_time o) (op_log o) false
  | Vehicles _ => mkset (op_verbosity o) (op_best_of_n o) (op_single o) (op_time o) (op_log o) true
  end.
Lemma read_more o a b t : read_options o (a :: b :: t) = read_options (read_option o a b) (b :: t).
Proof. reflexivity. Qed.
Lemma read_written g o b t : proper g -> read_options o (written g ++ b :: t) = read_options (set_option o g) (b :: t).
Proof.
  intros H. destruct g as [n|n| | |f|s|s]; cbn [written app proper] in *; rewrite !read_more.
  - unfold read_option at 2. rewrite (proj2 (isdigit_number n) H). rewrite (not_option _ n) by now apply number_no_option. reflexivity.
  - unfold read_option at 2. rewrite (proj2 (isdigit_number n) H). rewrite (not_option _ n) by now apply number_no_option. reflexivity.
  - reflexivity.
  - reflexivity.
  - rewrite (not_option _ f) by exact H. reflexivity.
  - rewrite (not_option _ s) by (apply target_no_option; destruct H as [-> | ->]; cbn; tauto). unfold read_option. destruct H as [-> | ->]; reflexivity.
  - rewrite (not_option _ s) by (apply target_no_option; destruct H as [-> | ->]; cbn; tauto). unfold read_option. destruct H as [-> | ->]; reflexivity.
Qed.
Lemma read_all gs x o : Forall proper gs -> read_options o (flat_map written gs ++ [x]) = fold_left set_option gs o.
Proof.
  intros H. revert o. induction H as [|g gs Hg H IH]; intros o; [reflexivity|]. cbn [flat_map fold_left]. rewrite <- app_assoc.
  destruct (flat_map written gs ++ [x]) as [|b t] eqn:E; [destruct (flat_map written gs); discriminate|].
  rewrite read_written by exact Hg. apply IH.
Qed.

Lemma set_fold gs : forall o,
  let r := fold_left set_option gs o in
  op_verbosity r = match last_said says_verbosity gs with Some n => int_of_digits n | None => op_verbosity o end /\
  op_best_of_n r = match last_said says_runs gs with Some n => int_of_digits n | None => op_best_of_n o end /\
  (op_single r = true <-> op_single o = true \/ In Single gs) /\
  (op_time r = true <-> op_time o = true \/ In Timing gs) /\
  op_log r = match last_said says_log gs with Some f => Some f | None => op_log o end /\
  op_minimize_K r = match last_said says_vehicles gs with Some b => b | None => op_minimize_K o end.
Proof.
  induction gs as [|g gs IH]; intros o r.
  - subst r. cbn. repeat split; auto; intros [H|[]]; exact H.
  - subst r. cbn [fold_left last_said]. destruct (IH (set_option o g)) as (A & B & C & D & E & F). clear IH.
    rewrite A, B, C, D, E, F. clear.
    destruct (last_said says_verbosity gs), (last_said says_runs gs), (last_said says_log gs), (last_said says_vehicles gs);
      destruct g; cbn; repeat split; intuition (auto; try discriminate).
Qed.
Lemma said_proper {A} (says : given -> option A) gs a : last_said says gs = Some a -> exists g, In g gs /\ says g = Some a.
Proof.
  induction gs as [|g gs IH]; cbn; [discriminate|]. destruct (last_said says gs) as [x|] eqn:E.
  - intros [= ->]. destruct IH as (g' & H1 & H2); [reflexivity|]. exists g'. auto.
  - intros H. exists g. auto.
Qed.
Lemma read_as_given gs x prog : ~ In prog option_names -> Forall proper gs ->
  as_given gs (read_options default_settings (prog :: flat_map written gs ++ [x])).
Proof.
  intros Hp H. assert (E : read_options default_settings (prog :: flat_map written gs ++ [x]) = fold_left set_option gs default_settings).
  { destruct (flat_map written gs ++ [x]) as [|b t] eqn:E; [destruct (flat_map written gs); discriminate|].
    rewrite read_more, not_option by exact Hp. rewrite <- E. now apply read_all. }
  rewrite E. destruct (set_fold gs default_settings) as (A & B & C & D & F & G). unfold as_given. rewrite Forall_forall in H.
  repeat split.
  - rewrite A. destruct (last_said says_verbosity gs) as [n|] eqn:En; [|reflexivity]. apply said_proper in En. destruct En as (g & Hg & Es).
    apply H in Hg. destruct g; try discriminate. injection Es as ->. now apply number_value.
  - rewrite B. destruct (last_said says_runs gs) as [n|] eqn:En; [|reflexivity]. apply said_proper in En. destruct En as (g & Hg & Es).
    apply H in Hg. destruct g; try discriminate. injection Es as ->. now apply number_value.
  - rewrite C. intros [X|X]; [discriminate|exact X].
  - rewrite C. auto.
  - rewrite D. intros [X|X]; [discriminate|exact X].
  - rewrite D. auto.
  - rewrite F. now destruct (last_said says_log gs).
  - exact G.
Qed.

(** ** The actions *)
Lemma no_help_asked argv : no_help argv -> asks_help argv = false.
Proof.
  intros [H1 H2]. unfold asks_help. destruct (existsb (text_eqb (str "-h")) argv) eqn:E1.
  - apply existsb_exists in E1. destruct E1 as (x & Hx & E). apply teq in E. now subst x.
  - destruct (existsb (text_eqb (str "--help")) argv) eqn:E2; [|reflexivity].
    apply existsb_exists in E2. destruct E2 as (x & Hx & E). apply teq in E. now subst x.
Qed.
Lemma help_asked argv : In (str "-h") argv \/ In (str "--help") argv -> asks_help argv = true.
Proof.
  intros H. unfold asks_help. apply orb_true_iff. destruct H as [H|H]; [left|right]; apply existsb_exists; eexists; (split; [exact H|apply teq_refl]).
Qed.
Lemma last_problem (prog : text) l (x : text) : last (prog :: l ++ [x]) [] = x.
Proof. change (prog :: l ++ [x]) with ((prog :: l) ++ [x]). apply last_last. Qed.
Lemma all_performed completes l : (forall a, In a l -> completes a = true) -> performed completes l = l.
Proof.
  induction l as [|a t IH]; intros H; [reflexivity|]. cbn. rewrite H by now left. f_equal. apply IH. intros b Hb. apply H. now right.
Qed.
Lemma performed_prefix completes l : exists r, l = performed completes l ++ r.
Proof.
  induction l as [|a t (r & IH)]; [now exists []|]. cbn. destruct (completes a).
  - exists r. cbn. congruence.
  - now exists t.
Qed.
