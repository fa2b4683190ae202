(** * Finding the problem files *)
From Verif Require Import Spec PyBase M_text M_cli2 Spec_cli2.
From Coq Require Import Sorting.Sorted ZifyBool ZifyNat.

Section FsInd.
Variable P : fs -> Prop.
Hypothesis HF : forall c, P (File c).
Hypothesis HD : forall es, Forall (fun e => P (snd e)) es -> P (Dir es).
Fixpoint fs_ind2 (t : fs) : P t :=
  match t with
  | File c => HF c
  | Dir es => HD es ((fix go (l : list (text * fs)) : Forall (fun e => P (snd e)) l :=
                        match l with [] => Forall_nil _ | e :: l' => Forall_cons e (fs_ind2 (snd e)) (go l') end) es)
  end.
End FsInd.

(** ** Sorting *)
Lemma sort_in_perm x l : Permutation (sort_in x l) (x :: l).
Proof. induction l as [|y l IH]; [reflexivity|]. cbn. destruct (key_ltb _ _); [|reflexivity]. rewrite IH. apply perm_swap. Qed.
Lemma natural_sort_perm l : Permutation (natural_sort l) l.
Proof. induction l as [|x l IH]; [constructor|]. cbn. now rewrite sort_in_perm, IH. Qed.

Lemma text_eqb_spec a b : reflect (a = b) (text_eqb a b).
Proof. unfold text_eqb. destruct (list_eq_dec ascii_dec a b); constructor; assumption. Qed.
Lemma piece_eqb_spec a b : reflect (a = b) (piece_eqb a b).
Proof.
  destruct a as [a|a], b as [b|b]; cbn; try (constructor; discriminate).
  - destruct (text_eqb_spec a b); constructor; congruence.
  - destruct (Z.eqb_spec a b); constructor; congruence.
Qed.
Lemma nat_of_ascii_inj x y : nat_of_ascii x = nat_of_ascii y -> x = y.
Proof. intros H. rewrite <- (ascii_nat_embedding x), H. apply ascii_nat_embedding. Qed.

(** The comparison is a strict total order up to equality of keys. *)
Lemma text_ltb_trans a : forall b c, text_ltb b a = false -> text_ltb c b = false -> text_ltb c a = false.
Proof.
  induction a as [|x a IH]; intros [|y b] [|z c]; cbn [text_ltb key_ltb]; try easy.
  destruct (Ascii.eqb_spec y x), (Ascii.eqb_spec z y), (Ascii.eqb_spec z x); subst; try easy; try apply IH; intros H1 H2;
    repeat match goal with H : ?u <> ?v |- _ =>
      assert (nat_of_ascii u <> nat_of_ascii v) by (intros E; apply nat_of_ascii_inj in E; congruence); clear H end; try lia; exfalso; lia.
Qed.
Lemma text_ltb_asym a b : text_ltb a b = true -> text_ltb b a = false.
Proof.
  revert b. induction a as [|x a IH]; intros [|y b]; cbn [text_ltb key_ltb]; try easy.
  destruct (Ascii.eqb_spec x y), (Ascii.eqb_spec y x); subst; try easy; try congruence; [apply IH|]. intros. lia.
Qed.
Lemma text_ltb_eq a : forall b, text_ltb a b = false -> text_ltb b a = false -> a = b.
Proof.
  induction a as [|x a IH]; intros [|y b]; cbn [text_ltb key_ltb]; try easy.
  destruct (Ascii.eqb_spec x y), (Ascii.eqb_spec y x); subst; try easy; try congruence.
  - intros H1 H2. f_equal. now apply IH.
  - intros H1 H2. exfalso. apply n. apply nat_of_ascii_inj. lia.
Qed.
Lemma piece_ltb_trans a b c : piece_ltb b a = false -> piece_ltb c b = false -> piece_ltb c a = false.
Proof. destruct a, b, c; cbn; try easy; [apply text_ltb_trans|lia]. Qed.
Lemma piece_ltb_eq a b : piece_ltb a b = false -> piece_ltb b a = false -> a = b.
Proof. destruct a, b; cbn; try easy; intros H1 H2; f_equal; [now apply text_ltb_eq|lia]. Qed.
Lemma piece_ltb_asym a b : piece_ltb a b = true -> piece_ltb b a = false.
Proof. destruct a, b; cbn; try easy; [apply text_ltb_asym|lia]. Qed.

Lemma key_ltb_trans a : forall b c, key_ltb b a = false -> key_ltb c b = false -> key_ltb c a = false.
Proof.
  induction a as [|x a IH]; intros [|y b] [|z c]; cbn [text_ltb key_ltb]; try easy.
  destruct (piece_eqb_spec y x), (piece_eqb_spec z y), (piece_eqb_spec z x); subst; try easy; try apply IH.
  - intros H1 H2. exfalso. apply n. now apply piece_ltb_eq.
  - apply piece_ltb_trans.
Qed.
Lemma key_ltb_asym a : forall b, key_ltb a b = true -> key_ltb b a = false.
Proof.
  induction a as [|x a IH]; intros [|y b]; cbn [text_ltb key_ltb]; try easy.
  destruct (piece_eqb_spec x y), (piece_eqb_spec y x); subst; try easy; try congruence; [apply IH|apply piece_ltb_asym].
Qed.

Lemma sort_in_sorted x l : StronglySorted natural_le l -> StronglySorted natural_le (sort_in x l).
Proof.
  induction 1 as [|y l HS IH HF]; [repeat constructor|]. cbn. destruct (key_ltb _ _) eqn:E.
  - constructor; [exact IH|]. rewrite Forall_forall in *. intros z Hz. rewrite sort_in_perm in Hz. destruct Hz as [<-|Hz]; [|now apply HF].
    unfold natural_le. now apply key_ltb_asym.
  - constructor; [now constructor|]. constructor; [exact E|]. rewrite Forall_forall in *. intros z Hz. specialize (HF z Hz).
    unfold natural_le in *. now apply (key_ltb_trans _ (natural_key y)).
Qed.
Lemma natural_sorted l : StronglySorted natural_le (natural_sort l).
Proof. induction l as [|x l IH]; [constructor|]. now apply sort_in_sorted. Qed.

(** ** Walking *)
Section Walk.
Variable look : text -> option fs.
Hypothesis HT : tree_view look.

Inductive strict (p : text) : text -> Prop :=
| st_one : forall n es c, look p = Some (Dir es) -> In (n, Dir c) es -> strict p (join_path p n)
| st_more : forall q n es c, strict p q -> look q = Some (Dir es) -> In (n, Dir c) es -> strict p (join_path q n).

Lemma strict_left p n es c q : look p = Some (Dir es) -> In (n, Dir c) es -> strict (join_path p n) q -> strict p q.
Proof using All.
  intros H1 H2. induction 1 as [m es' c' E Hm|q m es' c' _ IH E Hm].
  - eapply st_more; [eapply st_one; eassumption|eassumption|eassumption].
  - eapply st_more; eassumption.
Qed.

Lemma walk_sound t : forall p q, look p = Some t -> In q (walk_dirs p t) -> strict p q.
Proof using All.
  induction t as [c|es IH] using fs_ind2; intros p q Hp Hq; [easy|]. cbn [walk_dirs] in Hq. rewrite Forall_forall in IH.
  apply in_app_or in Hq. destruct Hq as [Hq|Hq]; apply in_flat_map in Hq; destruct Hq as ((n & t) & Hn & Hq); cbn [fst snd] in Hq.
  - destruct t as [|c]; [easy|]. destruct Hq as [<-|[]]. now apply (st_one p n es c).
  - destruct t as [|c]; [easy|]. apply (strict_left p n es c q Hp Hn). apply (IH (n, Dir c) Hn); [exact (HT p es n _ Hp Hn)|exact Hq].
Qed.

Lemma walk_closed t : forall p q es n c, look p = Some t -> In q (walk_dirs p t) -> look q = Some (Dir es) -> In (n, Dir c) es ->
  In (join_path q n) (walk_dirs p t).
Proof using All.
  induction t as [x|es0 IH] using fs_ind2; intros p q es n c Hp Hq Hl Hn; [easy|]. cbn [walk_dirs] in *. rewrite Forall_forall in IH.
  apply in_or_app. right. apply in_app_or in Hq. destruct Hq as [Hq|Hq]; apply in_flat_map in Hq; destruct Hq as ((m & t) & Hm & Hq); cbn [fst snd] in Hq;
    destruct t as [|c']; try easy; apply in_flat_map; exists (m, Dir c'); split; try exact Hm; cbn [fst snd].
  - destruct Hq as [<-|[]]. rewrite (HT p es0 m _ Hp Hm) in Hl. injection Hl as ->. cbn [walk_dirs]. apply in_or_app. left.
    apply in_flat_map. exists (n, Dir c). split; [exact Hn|]. now left.
  - apply (IH (m, Dir c') Hm) with (es := es) (c := c); [exact (HT p es0 m _ Hp Hm)|exact Hq|exact Hl|exact Hn].
Qed.

Lemma walk_complete p q t : look p = Some t -> strict p q -> In q (walk_dirs p t).
Proof using All.
  intros Hp H. induction H as [n es c E Hn|q n es c _ IH E Hn].
  - rewrite Hp in E. injection E as ->. cbn [walk_dirs]. apply in_or_app. left. apply in_flat_map. exists (n, Dir c). split; [exact Hn|]. now left.
  - exact (walk_closed t p q es n c Hp IH E Hn).
Qed.

Lemma strict_dir p q : strict p q -> exists es, look q = Some (Dir es).
Proof using All. intros [n es c E Hn|r n es c _ E Hn]; exists c; exact (HT _ es n _ E Hn). Qed.

Lemma strict_trans p q r : strict p q -> strict q r -> strict p r.
Proof using All.
  intros H1. induction 1 as [n es c E Hn|r n es c _ IH E Hn]; eapply st_more; eassumption.
Qed.

Lemma subdir_strict p q : subdir look p q <-> (q = p /\ exists es, look p = Some (Dir es)) \/ strict p q.
Proof using All.
  split.
  - induction 1 as [es E|q n es c _ IH E Hn].
    + left. split; [reflexivity|now exists es].
    + right. destruct IH as [[-> _]|IH]; [now apply (st_one p n es c)|now apply (st_more p q n es c)].
  - intros [[-> [es E]]|H]; [now apply (sub_here look p es)|].
    induction H as [n es c E Hn|q n es c _ IH E Hn]; [apply (sub_down look p p n es c); try assumption; now apply (sub_here look p es)|].
    now apply (sub_down look p q n es c).
Qed.

(** ** The growing list *)
Fixpoint steps (t : fs) : nat :=
  match t with
  | File _ => 1%nat
  | Dir es => 1 + list_sum (map (fun e => match snd e with Dir _ => 2 * steps (snd e) - 1 | File _ => 0 end) es)
  end%nat.
Definition steps_at (p : text) : nat := match look p with Some t => steps t | None => 1 end.
Lemma steps_pos t : (1 <= steps t)%nat.
Proof using All. destruct t; cbn; lia. Qed.

Lemma list_sum_app' a b : list_sum (a ++ b) = (list_sum a + list_sum b)%nat.
Proof using All. apply list_sum_app. Qed.

Lemma walk_steps t : forall p, look p = Some t -> S (list_sum (map steps_at (walk_dirs p t))) = steps t.
Proof using All.
  induction t as [c|es IH] using fs_ind2; intros p Hp; [reflexivity|]. cbn [walk_dirs steps]. f_equal.
  rewrite map_app, list_sum_app.
  assert (G : forall l, (forall e, In e l -> In e es) ->
    (list_sum (map steps_at (flat_map (fun e => match snd e with Dir _ => [join_path p (fst e)] | File _ => [] end) l)) +
     list_sum (map steps_at (flat_map (fun e => match snd e with Dir _ => walk_dirs (join_path p (fst e)) (snd e) | File _ => [] end) l)) =
     list_sum (map (fun e => match snd e with Dir _ => 2 * steps (snd e) - 1 | File _ => 0 end) l))%nat).
  { induction l as [|[n t] l IHl]; intros Hl; [reflexivity|]. specialize (IHl (fun e H => Hl e (or_intror H))).
    assert (Hn : In (n, t) es) by (apply Hl; now left). rewrite Forall_forall in IH. specialize (IH (n, t) Hn (join_path p n) (HT p es n t Hp Hn)).
    cbn [snd fst] in IH. cbn [flat_map map snd fst list_sum]. rewrite !map_app, !list_sum_app. destruct t as [c|c]; [cbn; exact IHl|].
    assert (E1 : forall x l', list_sum (x :: l') = (x + list_sum l')%nat) by reflexivity.
    cbn [map]. rewrite !E1. unfold steps_at at 1. rewrite (HT p es n _ Hp Hn).
    change (list_sum []) with 0%nat. pose proof (steps_pos (Dir c)). lia. }
  specialize (G es (fun e H => H)). lia.
Qed.

Definition walked (p : text) : list text := match look p with Some t => walk_dirs p t | None => [] end.

Lemma walked_strict p q : In q (walked p) <-> strict p q.
Proof using All.
  unfold walked. destruct (look p) as [t|] eqn:E.
  - split; [now apply walk_sound|now apply walk_complete].
  - split; [easy|]. intros H. induction H as [n es c E' Hn|q n es c _ IH E' Hn]; [congruence|exact IH].
Qed.

Lemma walked_steps p : S (list_sum (map steps_at (walked p))) = steps_at p.
Proof using All. unfold walked, steps_at at 2. destruct (look p) as [t|] eqn:E; [now apply walk_steps|reflexivity]. Qed.

Lemma grow_ends fuel : forall todo, (list_sum (map steps_at todo) <= fuel)%nat ->
  exists l, (forall fuel', (fuel <= fuel')%nat -> grow look fuel' todo = Some l) /\
    forall q, In q l <-> exists p, In p todo /\ (q = p \/ strict p q).
Proof using All.
  induction fuel as [|fuel IH]; intros [|p rest] Hf.
  - exists []. split; [now intros [|]|]. intros q. split; [easy|now intros (p & [] & _)].
  - cbn [map list_sum fold_right] in Hf. pose proof (walked_steps p). lia.
  - exists []. split; [now intros [|]|]. intros q. split; [easy|now intros (p & [] & _)].
  - pose proof (walked_steps p) as HW. cbn [map] in Hf. change (list_sum (steps_at p :: map steps_at rest)) with (steps_at p + list_sum (map steps_at rest))%nat in Hf.
    destruct (IH (rest ++ walked p)) as (l & H1 & H2). { rewrite map_app, list_sum_app. lia. }
    exists (p :: l). split.
    + intros [|fuel'] Hfu; [lia|]. cbn [grow]. fold (walked p). rewrite (H1 fuel') by lia. reflexivity.
    + intros q. cbn [In]. rewrite H2. split.
      * intros [<-|(r & Hr & Hq)]; [exists p; auto|]. apply in_app_or in Hr. destruct Hr as [Hr|Hr]; [exists r; auto|].
        apply walked_strict in Hr. exists p. split; [now left|]. right. destruct Hq as [->|Hq]; [exact Hr|now apply (strict_trans p r)].
      * intros (r & [<-|Hr] & [->|Hq]); [now left| | |].
        -- right. exists q. split; [apply in_or_app; right; now apply walked_strict|now left].
        -- right. exists r. split; [apply in_or_app; now left|now left].
        -- right. exists r. split; [apply in_or_app; now left|now right].
Qed.

(** ** The files of one path *)
Lemma skipn_suffix (e n : text) : (length e <= length n)%nat -> skipn (length n - length e) n = e -> exists m, n = m ++ e.
Proof using All. intros _ H. exists (firstn (length n - length e) n). transitivity (firstn (length n - length e) n ++ skipn (length n - length e) n); [symmetry; apply firstn_skipn|now rewrite H]. Qed.

Lemma glob_spec e n : e <> [] -> (forall x t, e = x :: t -> x = "."%char) ->
  (glob_ext e n = true <-> exists a b, n = a :: b ++ e /\ a <> "."%char).
Proof using All.
  intros He Hdot. unfold glob_ext. destruct n as [|a n]; [split; [easy|intros (a & b & E & _); discriminate]|].
  rewrite !Bool.andb_true_iff, Bool.negb_true_iff. split.
  - intros [[H1 H2] H3]. destruct (Ascii.eqb_spec a "."%char) as [|Ha]; [discriminate|].
    destruct (text_eqb_spec (skipn (length (a :: n) - length e) (a :: n)) e) as [E|]; [|discriminate].
    destruct (skipn_suffix e (a :: n)) as (m & Em); [lia|exact E|]. destruct m as [|x m].
    + exfalso. cbn [app] in Em. subst e. apply Ha. now apply (Hdot a n).
    + cbn [app] in Em. injection Em as <- ->. exists a, m. split; [reflexivity|exact Ha].
  - intros (x & b & E & Hx). injection E as -> ->. split; [split|].
    + now destruct (Ascii.eqb_spec x "."%char).
    + cbn [length]. rewrite app_length. lia.
    + replace (length (x :: b ++ e) - length e)%nat with (length (x :: b)) by (cbn [length]; rewrite app_length; lia).
      change (x :: b ++ e) with ((x :: b) ++ e). rewrite skipn_app, Nat.sub_diag, skipn_all. cbn [skipn app].
      now destruct (text_eqb_spec e e).
Qed.

Lemma glob_in_spec p e es f : e <> [] -> (forall x t, e = x :: t -> x = "."%char) ->
  (In f (glob_in p e es) <-> exists n c, In (n, c) es /\ f = join_path p n /\ exists a b, n = a :: b ++ e /\ a <> "."%char).
Proof using All.
  intros He Hd. unfold glob_in. rewrite in_map_iff. split.
  - intros ((n & c) & <- & Hn). apply filter_In in Hn. destruct Hn as [Hn Hg]. cbn [fst] in *. exists n, c. split; [exact Hn|]. split; [reflexivity|].
    now apply (glob_spec e n He Hd).
  - intros (n & c & Hn & -> & Hg). exists (n, c). split; [reflexivity|]. apply filter_In. split; [exact Hn|]. now apply (glob_spec e n He Hd).
Qed.

Lemma list_one_spec p f : In f (list_one look p) <-> names_file look p f \/ holds look p f.
Proof using All.
  unfold list_one, names_file, holds. destruct (look p) as [[content|es]|] eqn:E.
  - destruct (has_ext ext_txt p) eqn:Ex; unfold ext_txt in Ex.
    + rewrite filter_In. unfold isfile. split.
      * intros [H1 H2]. left. exists content. split; [reflexivity|]. rewrite Ex. split; [exact H1|]. destruct (look f) as [[c|]|]; try discriminate. now exists c.
      * intros [(c & Ec & H)|(es & n & c & e & Ec & _)]; [|discriminate]. injection Ec as <-. rewrite Ex in H. destruct H as [H1 [c H2]]. now rewrite H2.
    + split.
      * intros H. left. exists content. split; [reflexivity|]. rewrite Ex. unfold ext_vrp, ext_tsp, ext_pickle in H.
        destruct (has_ext (str ".vrp") p); [destruct H as [<-|[]]; auto|]. destruct (has_ext (str ".tsp") p); [destruct H as [<-|[]]; auto|].
        destruct (has_ext (str ".pickle") p); [destruct H as [<-|[]]; auto|easy].
      * intros [(c & Ec & H)|(es & n & c & e & Ec & _)]; [|discriminate]. rewrite Ex in H. destruct H as [H ->].
        unfold ext_vrp, ext_tsp, ext_pickle. destruct H as [->|[->| ->]]; rewrite ?Bool.orb_true_r; now left.
  - assert (HP : forall l, In f (natural_sort l) <-> In f l).
    { intros l. split; apply Permutation_in; [|symmetry]; apply natural_sort_perm. }
    rewrite !in_app_iff, !HP. unfold ext_vrp, ext_tsp, ext_pickle.
    rewrite !glob_in_spec by (try discriminate; intros x t X; now injection X as <- _). split.
    + intros [(n & c & H1 & H2 & H3)|[(n & c & H1 & H2 & H3)|(n & c & H1 & H2 & H3)]]; right; exists es, n, c; eexists;
        (split; [reflexivity|]; split; [exact H1|]; split; [exact H2|]; split; [|exact H3]); cbn [In]; auto.
    + intros [(c & Ec & _)|(es' & n & c & e & Ec & H1 & H2 & He & H3)]; [discriminate|]. injection Ec as <-.
      destruct He as [<-|[<-|[<-|[]]]]; [left|right; left|right; right]; exists n, c; auto.
  - split; [easy|]. intros [(c & Ec & _)|(es' & n & c & e & Ec & _)]; discriminate.
Qed.

Lemma file_list paths recursive :
  exists fuel0 l, (forall fuel, (fuel0 <= fuel)%nat -> get_a_problem_file_list look fuel paths recursive = Some l) /\
    forall f, In f l <-> exists p, In p paths /\
      (names_file look p f \/ exists q, (if recursive then subdir look p q else q = p) /\ holds look q f).
Proof using All.
  unfold get_a_problem_file_list. destruct recursive.
  - destruct (grow_ends _ paths (le_n _)) as (l & H1 & H2). exists (list_sum (map steps_at paths)), (flat_map (list_one look) l).
    split; [intros fuel Hf; now rewrite (H1 fuel Hf)|]. intros f. rewrite in_flat_map. split.
    + intros (q & Hq & Hf). apply list_one_spec in Hf. apply H2 in Hq. destruct Hq as (p & Hp & Hq). exists p. split; [exact Hp|].
      destruct Hq as [->|Hq].
      * destruct Hf as [Hf|Hf]; [now left|]. right. exists p. split; [|exact Hf]. destruct Hf as (es & n & c & e & E & _). now apply (sub_here look p es).
      * right. exists q. split; [apply subdir_strict; now right|]. destruct Hf as [(c & E & _)|Hf]; [|exact Hf].
        destruct (strict_dir p q Hq) as (es & E'). congruence.
    + intros (p & Hp & [Hf|(q & Hq & Hf)]).
      * exists p. split; [apply H2; exists p; auto|]. apply list_one_spec. now left.
      * exists q. split; [|apply list_one_spec; now right]. apply H2. exists p. split; [exact Hp|]. apply subdir_strict in Hq.
        destruct Hq as [[-> _]|Hq]; auto.
  - exists 0%nat, (flat_map (list_one look) paths). split; [reflexivity|]. intros f. rewrite in_flat_map. split.
    + intros (p & Hp & Hf). exists p. split; [exact Hp|]. apply list_one_spec in Hf. destruct Hf as [Hf|Hf]; [now left|]. right. now exists p.
    + intros (p & Hp & Hf). exists p. split; [exact Hp|]. apply list_one_spec. destruct Hf as [Hf|(q & -> & Hf)]; auto.
Qed.

Lemma glob_nodup p e es : NoDup (map fst es) -> NoDup (glob_in p e es).
Proof using All.
  clear HT. unfold glob_in. intros H. induction es as [|[n c] es IH]; cbn [filter map fst]; [constructor|]. cbn [map fst] in H. inversion H as [|? ? Hn Hr]; subst.
  destruct (glob_ext e n); [|now apply IH]. cbn [map fst]. constructor; [|now apply IH].
  intros Hin. apply in_map_iff in Hin. destruct Hin as ((m & x) & E & Hin). cbn [fst] in E. unfold join_path in E.
  apply app_inv_head in E. apply app_inv_head in E. subst m. apply filter_In in Hin. apply Hn. apply in_map_iff. exists (n, x). easy.
Qed.

Lemma directory_list p es fuel : look p = Some (Dir es) -> NoDup (map fst es) ->
  exists l1 l2 l3, get_a_problem_file_list look fuel [p] false = Some (l1 ++ l2 ++ l3) /\ NoDup (l1 ++ l2 ++ l3) /\
    StronglySorted natural_le l1 /\ StronglySorted natural_le l2 /\ StronglySorted natural_le l3 /\
    (forall f, In f l1 -> exists a, f = a ++ str ".vrp") /\ (forall f, In f l2 -> exists a, f = a ++ str ".tsp") /\
    (forall f, In f l3 -> exists a, f = a ++ str ".pickle").
Proof using All.
  intros E HN. exists (natural_sort (glob_in p ext_vrp es)), (natural_sort (glob_in p ext_tsp es)), (natural_sort (glob_in p ext_pickle es)).
  assert (HX : forall e f, e <> [] -> (forall x t, e = x :: t -> x = "."%char) -> In f (natural_sort (glob_in p e es)) -> exists a, f = a ++ e).
  { intros e f He Hd Hf. apply (Permutation_in _ (natural_sort_perm _)) in Hf. apply glob_in_spec in Hf; [|assumption|assumption].
    destruct Hf as (n & c & _ & -> & a & b & -> & _). exists (p ++ str "/" ++ a :: b). unfold join_path. rewrite <- !app_assoc. reflexivity. }
  assert (X1 := HX ext_vrp). assert (X2 := HX ext_tsp). assert (X3 := HX ext_pickle).
  assert (Hv : forall f, In f (natural_sort (glob_in p ext_vrp es)) -> exists a, f = a ++ str ".vrp").
  { intros f. apply X1; [discriminate|]. intros x t Ht. now injection Ht as <- _. }
  assert (Hts : forall f, In f (natural_sort (glob_in p ext_tsp es)) -> exists a, f = a ++ str ".tsp").
  { intros f. apply X2; [discriminate|]. intros x t Ht. now injection Ht as <- _. }
  assert (Hp : forall f, In f (natural_sort (glob_in p ext_pickle es)) -> exists a, f = a ++ str ".pickle").
  { intros f. apply X3; [discriminate|]. intros x t Ht. now injection Ht as <- _. }
  assert (HNg : forall e, NoDup (natural_sort (glob_in p e es))).
  { intros e. apply (Permutation_NoDup (Permutation_sym (natural_sort_perm _))). now apply glob_nodup. }
  split; [unfold get_a_problem_file_list, list_one; cbn [option_map flat_map]; rewrite E, app_nil_r; reflexivity|].
  split; [|repeat (split; [apply natural_sorted|]); auto].
  assert (L1 : forall (a b : text) x y, a ++ [x] = b ++ [y] -> x = y) by (intros a b x y X; now apply app_inj_tail in X).
  assert (HD : forall (l1 l2 : list text), NoDup l1 -> NoDup l2 -> (forall f, In f l1 -> In f l2 -> False) -> NoDup (l1 ++ l2)).
  { clear. induction l1 as [|x l1 IH]; intros l2 H1 H2 H3; [exact H2|]. inversion H1; subst. cbn. constructor.
    - rewrite in_app_iff. intros [X|X]; [easy|]. apply (H3 x); [now left|exact X].
    - apply IH; auto. intros f F1 F2. apply (H3 f); [now right|exact F2]. }
  apply HD; [apply HNg|apply HD; [apply HNg|apply HNg|]|].
  - intros f F2 F3. destruct (Hts f F2) as (a & E1). destruct (Hp f F3) as (b & E2). rewrite E1 in E2.
    change (str ".tsp") with (str ".ts" ++ ["p"%char]) in E2. change (str ".pickle") with (str ".pickl" ++ ["e"%char]) in E2.
    rewrite !app_assoc in E2. apply L1 in E2. discriminate.
  - intros f F1 F23. apply in_app_or in F23. destruct (Hv f F1) as (a & E1).
    destruct F23 as [F2|F3].
    + destruct (Hts f F2) as (b & E2). rewrite E1 in E2.
      change (str ".vrp") with ((str ".v" ++ ["r"%char]) ++ ["p"%char]) in E2. change (str ".tsp") with ((str ".t" ++ ["s"%char]) ++ ["p"%char]) in E2.
      rewrite !app_assoc in E2. apply app_inj_tail in E2. destruct E2 as [E2 _]. rewrite <- !app_assoc in E2. rewrite !app_assoc in E2. apply L1 in E2. discriminate.
    + destruct (Hp f F3) as (b & E2). rewrite E1 in E2.
      change (str ".vrp") with (str ".vr" ++ ["p"%char]) in E2. change (str ".pickle") with (str ".pickl" ++ ["e"%char]) in E2.
      rewrite !app_assoc in E2. apply L1 in E2. discriminate.
Qed.
End Walk.
