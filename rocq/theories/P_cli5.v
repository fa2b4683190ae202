(** * Choosing the algorithms *)
From Verif Require Import Spec PyBase M_text M_cli2 Spec_cli2 P_cli4.

Definition has (l : list text) (n : text) : bool := existsb (text_eqb n) l.
Lemma has_in l n : has l n = true <-> In n l.
Proof.
  unfold has. rewrite existsb_exists. split.
  - intros (x & Hx & E). destruct (text_eqb_spec n x); [now subst|discriminate].
  - intros H. exists n. split; [exact H|]. now destruct (text_eqb_spec n n).
Qed.

(** What the name [n], in lower case, selects, from the catalogue. *)
Definition selected (g : bool) (n : text) : list text :=
  flat_map (fun q => let '(abbr, names, classical, gurobi) := q in
    if (has (texts names) n || text_eqb n (str "all") || (classical && (text_eqb n (str "classical") || text_eqb n (str "classic")))) && (negb gurobi || g)
    then [str abbr] else []) catalogue.

Definition known_names : list text := map (fun q => str (fst q)) alias_table.
Definition named (g : bool) (n : text) : list text :=
  match alias n with
  | None => []
  | Some s =>
      flat_map (fun q => let '(abbr, classical, gurobi) := q in
        if text_eqb s (str abbr) || text_eqb s (str "all") || (classical && text_eqb s (str "classical"))
        then (if gurobi && negb g then [] else [str abbr]) else []) algo_table
  end.
Lemma algos_named_eq g n : algos_named g n = named g (lower n).
Proof. reflexivity. Qed.

Definition texts_eqb (a b : list text) : bool := if list_eq_dec (list_eq_dec ascii_dec) a b then true else false.

Lemma unknown_alias n : ~ In n known_names -> alias n = None.
Proof.
  intros H. unfold alias. destruct (find _ alias_table) as [q|] eqn:E; [|reflexivity]. exfalso. apply H.
  apply find_some in E. destruct E as [E1 E2]. destruct (text_eqb_spec n (str (fst q))); [|discriminate]. subst n.
  apply in_map_iff. now exists q.
Qed.

Lemma check_names : forallb (fun g => forallb (fun n => text_eqb n (str "mj76-si") || texts_eqb (named g n) (selected g n)) known_names) [true; false] = true.
Proof. vm_compute. reflexivity. Qed.
Lemma catalogue_known : forallb (fun q => let '(_, names, _, _) := q in forallb (fun n => has known_names (str n)) names) catalogue = true.
Proof. vm_compute. reflexivity. Qed.
Lemma groups_known : has known_names (str "all") && has known_names (str "classical") && has known_names (str "classic") = true.
Proof. vm_compute. reflexivity. Qed.

Lemma in_catalogue_known abbr names c g n : In (abbr, names, c, g) catalogue -> In n (texts names) -> In n known_names.
Proof.
  intros H1 H2. pose proof catalogue_known as H. rewrite forallb_forall in H. specialize (H _ H1). cbn beta iota in H. rewrite forallb_forall in H.
  unfold texts in H2. apply in_map_iff in H2. destruct H2 as (x & <- & Hx). apply has_in. now apply H.
Qed.

Lemma named_selected g n : n <> str "mj76-si" -> named g n = selected g n.
Proof.
  intros Hmj. destruct (has known_names n) eqn:Hk.
  - apply has_in in Hk. pose proof check_names as H. rewrite forallb_forall in H. specialize (H g). cbv beta in H. rewrite forallb_forall in H.
    assert (Hg : In g [true; false]) by (destruct g; cbn; auto). specialize (H Hg n Hk). apply Bool.orb_true_iff in H. destruct H as [H|H].
    + destruct (text_eqb_spec n (str "mj76-si")); [easy|discriminate].
    + unfold texts_eqb in H. now destruct (list_eq_dec _ _ _).
  - assert (Hn : ~ In n known_names) by (intros X; apply has_in in X; congruence). unfold named. rewrite (unknown_alias n Hn). symmetry.
    unfold selected. pose proof groups_known as HG. rewrite !Bool.andb_true_iff in HG. destruct HG as [[G1 G2] G3]. apply has_in in G1, G2, G3.
    assert (E : forall q, In q catalogue -> (let '(abbr, names, classical, gurobi) := q in
      if (has (texts names) n || text_eqb n (str "all") || (classical && (text_eqb n (str "classical") || text_eqb n (str "classic")))) && (negb gurobi || g)
      then [str abbr] else []) = []).
    { intros (((abbr & names) & c) & gu) Hq.
      destruct (has (texts names) n) eqn:E1; [apply has_in in E1; exfalso; apply Hn; now apply (in_catalogue_known abbr names c gu)|].
      destruct (text_eqb_spec n (str "all")) as [E2|_]; [exfalso; apply Hn; rewrite E2; exact G1|].
      destruct (text_eqb_spec n (str "classical")) as [E2|_]; [exfalso; apply Hn; rewrite E2; exact G2|].
      destruct (text_eqb_spec n (str "classic")) as [E2|_]; [exfalso; apply Hn; rewrite E2; exact G3|].
      cbn [orb andb]. now rewrite Bool.andb_false_r. }
    revert E. generalize catalogue as l. induction l as [|q l IH]; intros E; [reflexivity|]. cbn [flat_map]. rewrite (E q (or_introl eq_refl)). apply IH. intros; apply E; now right.
Qed.

Lemma in_selected g n a : In a (selected g (lower n)) <-> selects g n a.
Proof.
  unfold selected, selects. rewrite in_flat_map. split.
  - intros ((((abbr & names) & c) & gu) & Hq & Ha).
    match type of Ha with In _ (if ?b then _ else _) => destruct b eqn:E end; [|easy]. destruct Ha as [<-|[]].
    exists abbr, names, c, gu. apply Bool.andb_true_iff in E. destruct E as [E1 E2]. split; [exact Hq|]. split; [reflexivity|].
    split; [intros ->; exact E2|]. rewrite !Bool.orb_true_iff, Bool.andb_true_iff, Bool.orb_true_iff in E1.
    destruct E1 as [[E1|E1]|[-> [E1|E1]]]; [left; now apply has_in|right; left|right; right; split; [reflexivity|left]|right; right; split; [reflexivity|right]];
      match type of E1 with text_eqb ?x ?y = true => destruct (text_eqb_spec x y); [assumption|discriminate] end.
  - intros (abbr & names & c & gu & Hq & -> & Hg & H). exists (abbr, names, c, gu). split; [exact Hq|].
    match goal with |- In _ (if ?b then _ else _) => replace b with true; [now left|] end. symmetry. apply Bool.andb_true_iff. split.
    + rewrite !Bool.orb_true_iff, Bool.andb_true_iff, Bool.orb_true_iff. destruct H as [H|[->|[-> [->| ->]]]].
      * left; left. now apply has_in.
      * left; right. reflexivity.
      * right. split; [reflexivity|left; reflexivity].
      * right. split; [reflexivity|right; reflexivity].
    + destruct gu; [|reflexivity]. now rewrite Hg.
Qed.

Lemma algorithms_selected g names a : (forall n, In n names -> lower n <> str "mj76-si") ->
  (In a (get_algorithms g names) <-> exists n, In n names /\ selects g n a).
Proof.
  intros H. unfold get_algorithms. rewrite in_flat_map. split; intros (n & Hn & Ha); exists n; (split; [exact Hn|]).
  - rewrite algos_named_eq, named_selected in Ha by now apply H. now apply in_selected.
  - rewrite algos_named_eq, named_selected by now apply H. now apply in_selected.
Qed.

(** One name never selects an algorithm twice. *)
Fixpoint nodupb (l : list text) : bool := match l with [] => true | x :: t => negb (has t x) && nodupb t end.
Lemma nodupb_ok l : nodupb l = true -> NoDup l.
Proof.
  induction l as [|x l IH]; intros H; [constructor|]. cbn in H. apply Bool.andb_true_iff in H. destruct H as [H1 H2]. constructor; [|now apply IH].
  intros X. apply has_in in X. now rewrite X in H1.
Qed.
Lemma check_once : forallb (fun g => forallb (fun n => nodupb (named g n)) known_names) [true; false] = true.
Proof. vm_compute. reflexivity. Qed.
Lemma selected_once g n : NoDup (get_algorithms g [n]).
Proof.
  unfold get_algorithms. cbn [flat_map]. rewrite app_nil_r, algos_named_eq. generalize (lower n) as m. intros m.
  destruct (has known_names m) eqn:Hk.
  - apply has_in in Hk. apply nodupb_ok. pose proof check_once as H. rewrite forallb_forall in H. specialize (H g). cbv beta in H. rewrite forallb_forall in H.
    apply H; [destruct g; cbn; auto|exact Hk].
  - unfold named. rewrite unknown_alias; [constructor|]. intros X. apply has_in in X. congruence.
Qed.

(** ** Forbidding *)
Lemma check_called : forallb (fun n => text_eqb n (str "mj76-si") ||
  match alias n with
  | None => false
  | Some s => forallb (fun q => let '(abbr, names, _, _) := q in Bool.eqb (has (texts names) n) (text_eqb s (str abbr))) catalogue
  end) known_names = true.
Proof. vm_compute. reflexivity. Qed.
Lemma check_abbrs : forallb (fun q => let '(a, _, _) := q in existsb (fun r => let '(b, _, _, _) := r in String.eqb a b) catalogue) algo_table = true.
Proof. vm_compute. reflexivity. Qed.

Lemma known_alias n : In n known_names -> exists s, alias n = Some s.
Proof.
  intros H. unfold alias. apply in_map_iff in H. destruct H as (q & <- & Hq).
  destruct (find _ alias_table) as [r|] eqn:E; [now eexists|]. exfalso.
  apply (find_none _ _ E) in Hq. destruct (text_eqb_spec (str (fst q)) (str (fst q))); [discriminate|easy].
Qed.
Lemma alias_known n s : alias n = Some s -> In n known_names.
Proof. intros H. destruct (has known_names n) eqn:E; [now apply has_in|]. rewrite unknown_alias in H; [discriminate|]. intros X. apply has_in in X. congruence. Qed.

Lemma str_inj a : forall b, str a = str b -> a = b.
Proof.
  intros b H. rewrite <- (string_of_list_ascii_of_string a), <- (string_of_list_ascii_of_string b). now rewrite H.
Qed.

Lemma alias_called n s abbr names c gu : n <> str "mj76-si" -> alias n = Some s -> In (abbr, names, c, gu) catalogue ->
  (In n (texts names) <-> s = str abbr).
Proof.
  intros Hm Hs Hq. pose proof check_called as H. rewrite forallb_forall in H. specialize (H n (alias_known n s Hs)). apply Bool.orb_true_iff in H.
  destruct H as [H|H]; [destruct (text_eqb_spec n (str "mj76-si")); [easy|discriminate]|]. rewrite Hs in H. rewrite forallb_forall in H. specialize (H _ Hq). cbv beta iota in H.
  apply Bool.eqb_prop in H. rewrite <- has_in, H. destruct (text_eqb_spec s (str abbr)); now split.
Qed.

Lemma forbidden_spec names : forall fb, forbidden_abbrs names = Some fb -> forall s, In s fb <-> exists n, In n names /\ alias n = Some s.
Proof.
  induction names as [|n names IH]; cbn [forbidden_abbrs]; intros fb H s; [injection H as <-; split; [easy|now intros (n & [] & _)]|].
  destruct (alias n) as [t|] eqn:En; [|discriminate]. destruct (forbidden_abbrs names) as [l|]; [|discriminate]. injection H as <-. cbn [In]. rewrite (IH l eq_refl s). split.
  - intros [->|(m & Hm & E)]; [exists n; auto|exists m; auto].
  - intros (m & [<-|Hm] & E); [left; congruence|right; now exists m].
Qed.
Lemma forbidden_known names : (forall n, In n names -> In n known_names) <-> exists fb, forbidden_abbrs names = Some fb.
Proof.
  induction names as [|n names IH]; cbn [forbidden_abbrs]; [split; [now exists []|easy]|]. split.
  - intros H. destruct (known_alias n) as (s & ->); [apply H; now left|]. destruct IH as [IH _]. destruct IH as (fb & ->); [intros; apply H; now right|]. now eexists.
  - intros (fb & H). destruct (alias n) as [s|] eqn:E; [|discriminate]. destruct (forbidden_abbrs names) as [l|]; [|discriminate].
    intros m [<-|Hm]; [now apply (alias_known n s)|]. now apply IH; [exists l|].
Qed.

Lemma algo_in_catalogue g names a : In a (get_algorithms g names) -> exists abbr ns c gu, In (abbr, ns, c, gu) catalogue /\ a = str abbr.
Proof.
  unfold get_algorithms. rewrite in_flat_map. intros (n & _ & Ha). rewrite algos_named_eq in Ha. unfold named in Ha. destruct (alias _); [|easy].
  apply in_flat_map in Ha. destruct Ha as (((x & c) & gu) & Hq & Ha).
  assert (a = str x) as -> by (repeat match type of Ha with In _ (if ?b then _ else _) => destruct b end; try easy; now destruct Ha as [<-|[]]).
  pose proof check_abbrs as H. rewrite forallb_forall in H. specialize (H _ Hq). cbv beta iota in H. apply existsb_exists in H.
  destruct H as ((((y & ns) & c') & gu') & Hy & E). apply String.eqb_eq in E. subst y. now exists x, ns, c', gu'.
Qed.

Lemma check_known : forallb (fun n => has [str "all"; str "classical"; str "classic"] n ||
  existsb (fun q => let '(_, names, _, _) := q in has (texts names) n) catalogue) known_names = true.
Proof. vm_compute. reflexivity. Qed.
Lemma known_a_name n : In n known_names <-> a_name n.
Proof.
  split.
  - intros H. pose proof check_known as C. rewrite forallb_forall in C. specialize (C n H). apply Bool.orb_true_iff in C. destruct C as [C|C].
    + apply has_in in C. unfold a_name. destruct C as [<-|[<-|[<-|[]]]]; auto.
    + apply existsb_exists in C. destruct C as ((((x & ns) & c) & gu) & Hq & E). right; right; right. exists (str x), x, ns, c, gu. apply has_in in E. auto.
  - pose proof groups_known as HG. rewrite !Bool.andb_true_iff in HG. destruct HG as [[G1 G2] G3]. apply has_in in G1, G2, G3.
    intros [->|[->|[->|(a & x & ns & c & gu & Hq & _ & Hn)]]]; try assumption. now apply (in_catalogue_known x ns c gu).
Qed.

Lemma forbidden_left_out g active forbid : (forall n, In n forbid -> n <> str "mj76-si") ->
  (forall n, In n forbid -> a_name n) ->
  exists l, algos_to_run g active forbid = Some l /\
    forall a, In a l <-> In a (get_algorithms g active) /\ ~ exists n, In n forbid /\ called a n.
Proof.
  intros Hmj Hk. unfold algos_to_run. destruct forbid as [|f forbid].
  - exists (get_algorithms g active). split; [reflexivity|]. intros a. split; [|easy]. intros H. split; [exact H|]. now intros (n & [] & _).
  - destruct (proj1 (forbidden_known (f :: forbid))) as (fb & Efb). { intros n Hn. apply known_a_name. now apply Hk. }
    rewrite Efb. cbn [option_map]. eexists. split; [reflexivity|]. intros a. rewrite filter_In, Bool.negb_true_iff.
    split.
    + intros [Ha Hb]. split; [exact Ha|]. intros (n & Hn & x & ns & c & gu & Hq & -> & Hin).
      destruct (known_alias n) as (s & Es); [now apply (in_catalogue_known x ns c gu)|].
      apply (alias_called n s x ns c gu (Hmj n Hn) Es Hq) in Hin. subst s.
      assert (In (str x) fb) as X by (apply (forbidden_spec _ _ Efb); now exists n). apply has_in in X. unfold has in X. congruence.
    + intros [Ha Hb]. split; [exact Ha|]. destruct (existsb (text_eqb a) fb) eqn:E; [|reflexivity]. exfalso. apply Hb.
      assert (In a fb) as X by now apply has_in. apply (forbidden_spec _ _ Efb) in X. destruct X as (n & Hn & Es). exists n. split; [exact Hn|].
      destruct (algo_in_catalogue g active a Ha) as (x & ns & c & gu & Hq & ->). exists x, ns, c, gu. split; [exact Hq|]. split; [reflexivity|].
      now apply (alias_called n (str x) x ns c gu (Hmj n Hn) Es Hq).
Qed.
