(** * Proofs about the table of results *)
From Verif Require Import Spec Spec_driver PyBase M_text M_cli Spec_cli M_cli2 P_cli4 M_table Spec_table.
From Coq Require Import ZifyBool ZifyNat Lia Arith List Permutation Sorting.Sorted.
Import ListNotations.
Local Open Scope Z_scope.

Lemma text_eqb_true a b : text_eqb a b = true <-> a = b.
Proof. unfold text_eqb. destruct (list_eq_dec Ascii.ascii_dec a b) as [E|E]; split; intros; congruence || (try exact E); easy. Qed.
Lemma text_eqb_refl' a : text_eqb a a = true.
Proof. now apply text_eqb_true. Qed.
Lemma text_eqb_false a b : text_eqb a b = false <-> a <> b.
Proof. destruct (text_eqb a b) eqn:E; split; intros H; try easy; [apply text_eqb_true in E; congruence|]. intros ->. rewrite text_eqb_refl' in E. discriminate. Qed.

(** ** Dictionaries *)
Section Dict.
Context {A : Type}.
Implicit Types (m : dict A) (k : text) (v : A).

Lemma get_set k k' v m : get_item k' (set_item k v m) = if text_eqb k' k then Some v else get_item k' m.
Proof.
  induction m as [|[k0 v0] m IH]; cbn [set_item get_item]; [reflexivity|].
  destruct (text_eqb k k0) eqn:E.
  - apply text_eqb_true in E. subst k0. cbn [get_item]. now destruct (text_eqb k' k).
  - cbn [get_item]. rewrite IH. destruct (text_eqb k' k0) eqn:E0; [|reflexivity]. apply text_eqb_true in E0. subst k0.
    destruct (text_eqb k' k) eqn:E1; [|reflexivity]. apply text_eqb_true in E1. subst. rewrite text_eqb_refl' in E. discriminate.
Qed.
Lemma keys_set k v m : forall x, In x (map fst (set_item k v m)) <-> x = k \/ In x (map fst m).
Proof.
  induction m as [|[k0 v0] m IH]; intros x; cbn [set_item map fst In]; [intuition|].
  destruct (text_eqb k k0) eqn:E.
  - apply text_eqb_true in E. subst k0. cbn [map fst In]. intuition.
  - cbn [map fst In]. rewrite IH. intuition.
Qed.
Lemma nodup_set k v m : NoDup (map fst m) -> NoDup (map fst (set_item k v m)).
Proof.
  induction m as [|[k0 v0] m IH]; cbn [set_item map fst]; intros H; [repeat constructor; easy|].
  inversion H as [|x l H1 H2]; subst x l. destruct (text_eqb k k0) eqn:E; cbn [map fst].
  - now constructor.
  - constructor; [|now apply IH]. rewrite keys_set. intros [->|Hk]; [rewrite text_eqb_refl' in E; discriminate|easy].
Qed.
Lemma get_in k v m : NoDup (map fst m) -> (get_item k m = Some v <-> In (k, v) m).
Proof.
  induction m as [|[k0 v0] m IH]; cbn [get_item map fst]; intros H; [easy|]. inversion H as [|x l H1 H2]; subst x l.
  destruct (text_eqb k k0) eqn:E.
  - apply text_eqb_true in E. subst k0. split; [intros [= ->]; now left|]. intros [[= ->]|Hk]; [reflexivity|].
    exfalso. apply H1. apply in_map_iff. now exists (k, v).
  - rewrite (IH H2). split; [now right|]. intros [[= -> ->]|Hk]; [rewrite text_eqb_refl' in E; discriminate|easy].
Qed.
Lemma get_key k m : get_item k m <> None <-> In k (map fst m).
Proof.
  induction m as [|[k0 v0] m IH]; cbn [get_item map fst In]; [easy|].
  destruct (text_eqb k k0) eqn:E; [apply text_eqb_true in E; subst; split; [now left|discriminate]|].
  rewrite IH. apply text_eqb_false in E. intuition congruence.
Qed.

Lemma insert_perm (x : text * A) l : Permutation (insert_item x l) (x :: l).
Proof.
  induction l as [|y l IH]; cbn [insert_item]; [reflexivity|]. destruct (text_ltb (fst y) (fst x)); [|reflexivity].
  rewrite IH. apply perm_swap.
Qed.
Lemma sorted_perm m : Permutation (sorted_items m) m.
Proof. induction m as [|x m IH]; cbn [sorted_items fold_right]; [reflexivity|]. rewrite insert_perm. now constructor. Qed.

Lemma ltb_trans a b c : text_ltb a b = true -> text_ltb b c = true -> text_ltb a c = true.
Proof.
  intros H1 H2. destruct (text_ltb a c) eqn:E; [reflexivity|]. exfalso.
  pose proof (text_ltb_asym _ _ H2) as H3. rewrite (text_ltb_trans b c a) in H1; [discriminate|exact H3|exact E].
Qed.
Lemma insert_sorted (x : text * A) l : ~ In (fst x) (map fst l) -> alphabetical (map fst l) -> alphabetical (map fst (insert_item x l)).
Proof.
  induction l as [|y l IH]; cbn [insert_item map]; intros Hx Hs; [repeat constructor|].
  inversion Hs as [|a t H1 H2]; subst a t. destruct (text_ltb (fst y) (fst x)) eqn:E; cbn [map].
  - constructor; [apply IH; [intros H; apply Hx; now right|exact H1]|]. rewrite Forall_forall in *. intros k Hk.
    apply (Permutation_in _ (Permutation_map fst (insert_perm x l))) in Hk. destruct Hk as [<-|Hk]; [exact E|now apply H2].
  - assert (E' : text_ltb (fst x) (fst y) = true).
    { destruct (text_ltb (fst x) (fst y)) eqn:E'; [reflexivity|]. exfalso. apply Hx. left. now apply text_ltb_eq. }
    constructor; [exact Hs|]. constructor; [exact E'|]. rewrite Forall_forall in *. intros k Hk. now apply (ltb_trans _ (fst y)), H2.
Qed.
Lemma sorted_alphabetical m : NoDup (map fst m) -> alphabetical (map fst (sorted_items m)).
Proof.
  induction m as [|x m IH]; cbn [sorted_items fold_right map]; intros H; [constructor|]. inversion H as [|a t H1 H2]; subst a t.
  apply insert_sorted; [|now apply IH]. intros Hx. apply H1. exact (Permutation_in _ (Permutation_map fst (sorted_perm m)) Hx).
Qed.
End Dict.

Lemma alphabetical_nodup l : alphabetical l -> NoDup l.
Proof.
  induction 1 as [|a l H IH HF]; constructor; [|exact IH]. intros Hin. rewrite Forall_forall in HF. specialize (HF a Hin). pose proof (text_ltb_asym _ _ HF). congruence.
Qed.
Lemma alphabetical_unique l : forall l', alphabetical l -> alphabetical l' -> (forall x, In x l <-> In x l') -> l = l'.
Proof.
  induction l as [|a l IH]; intros [|b l'] H H' Hi; [reflexivity|exfalso; now apply (Hi b); left|exfalso; now apply (Hi a); left|].
  pose proof (alphabetical_nodup _ H) as N1. pose proof (alphabetical_nodup _ H') as N2.
  inversion H as [|x t S1 F1]; subst x t. inversion H' as [|x t S2 F2]; subst x t. rewrite Forall_forall in *.
  assert (E : a = b).
  { destruct (proj1 (Hi a) (or_introl eq_refl)) as [E|E]; [easy|]. destruct (proj2 (Hi b) (or_introl eq_refl)) as [E'|E']; [easy|].
    specialize (F1 b E'). specialize (F2 a E). pose proof (text_ltb_asym _ _ F1). congruence. }
  subst b. f_equal. inversion N1 as [|x t D1 D2]; subst x t. inversion N2 as [|x t D3 D4]; subst x t.
  apply IH; [exact S1|exact S2|]. intros x. split; intros Hx.
  - destruct (proj1 (Hi x) (or_intror Hx)) as [->|E]; [easy|exact E].
  - destruct (proj2 (Hi x) (or_intror Hx)) as [->|E]; [easy|exact E].
Qed.

(** ** What the dictionaries hold after some reports *)
Section Reports.
Variables bn an : nat -> text.
Notation the_file := (the_file bn).
Notation the_algo := (the_algo an).

Lemma reported_intro rs r : In r rs -> reported bn an rs (the_file r) (the_algo r) (the_quality r).
Proof. destruct r as [f a sol ok q K st|f a st]; intros H; exists f, a; (split; [reflexivity|]; split; [reflexivity|]); cbn; [exists sol, ok, K, st|exists st]; exact H. Qed.
Lemma reported_more rs r f a v : reported bn an rs f a v -> reported bn an (rs ++ [r]) f a v.
Proof.
  intros (i & j & E1 & E2 & H). exists i, j. split; [exact E1|]. split; [exact E2|].
  destruct v as [q|]; [destruct H as (sol & ok & K & st & H); exists sol, ok, K, st|destruct H as (st & H); exists st]; apply in_or_app; now left.
Qed.

Definition results_ok (rs : list report) (results : dict (dict (option Z))) : Prop :=
  NoDup (map fst results) /\
  (forall f, In f (map fst results) <-> exists r, In r rs /\ the_file r = f) /\
  forall f row, get_item f results = Some row ->
    NoDup (map fst row) /\ (forall a, In a (map fst row) <-> exists r, In r rs /\ the_file r = f /\ the_algo r = a) /\
    forall a v, get_item a row = Some v -> reported bn an rs f a v.

Lemma results_step rs results r : results_ok rs results -> results_ok (rs ++ [r]) (add_result bn an results r).
Proof.
  intros (H1 & H2 & H3). unfold add_result. set (row := match get_item (the_file r) results with Some m => m | None => [] end).
  assert (R : NoDup (map fst row) /\ (forall a, In a (map fst row) <-> exists r', In r' rs /\ the_file r' = the_file r /\ the_algo r' = a) /\
              forall a v, get_item a row = Some v -> reported bn an rs (the_file r) a v).
  { unfold row. destruct (get_item (the_file r) results) as [m|] eqn:E; [now apply H3|]. split; [constructor|]. split; [|easy].
    intros a. split; [easy|]. intros (r' & Hr & Ef & _). exfalso. apply (proj2 (get_key (the_file r) results)); [|exact E]. apply H2. now exists r'. }
  destruct R as (R1 & R2 & R3). split; [now apply nodup_set|]. split.
  - intros f. rewrite keys_set, H2. split.
    + intros [->|(r' & Hr & E)]; [exists r; split; [apply in_or_app; right; now left|reflexivity]|exists r'; split; [apply in_or_app; now left|exact E]].
    + intros (r' & Hr & E). apply in_app_or in Hr. destruct Hr as [Hr|[->|[]]]; [right; now exists r'|now left].
  - intros f row'. rewrite get_set. destruct (text_eqb f (the_file r)) eqn:E.
    + apply text_eqb_true in E. subst f. intros [= <-]. split; [now apply nodup_set|]. split.
      * intros a. rewrite keys_set, R2. split.
        -- intros [->|(r' & Hr & E)]; [exists r; split; [apply in_or_app; right; now left|easy]|exists r'; split; [apply in_or_app; now left|exact E]].
        -- intros (r' & Hr & Ef & Ea). apply in_app_or in Hr. destruct Hr as [Hr|[->|[]]]; [right; now exists r'|now left].
      * intros a v. rewrite get_set. destruct (text_eqb a (the_algo r)) eqn:Ea.
        -- apply text_eqb_true in Ea. subst a. intros [= <-]. apply reported_intro. apply in_or_app. right. now left.
        -- intros Hv. apply reported_more. now apply R3.
    + apply text_eqb_false in E. intros Hf. destruct (H3 f row' Hf) as (S1 & S2 & S3). split; [exact S1|]. split.
      * intros a. rewrite S2. split; intros (r' & Hr & Ef & Ea).
        -- exists r'. split; [apply in_or_app; now left|easy].
        -- apply in_app_or in Hr. destruct Hr as [Hr|[->|[]]]; [now exists r'|congruence].
      * intros a v Hv. apply reported_more. now apply S3.
Qed.
Lemma results_all rs : results_ok rs (fold_left (add_result bn an) rs []).
Proof.
  induction rs as [|r rs IH] using rev_ind; [|rewrite fold_left_app; now apply results_step].
  split; [constructor|]. split; [|easy]. intros f. split; [easy|]. now intros (r & [] & _).
Qed.

Definition data_ok (rs : list report) (data : dict nat) : Prop :=
  NoDup (map fst data) /\ forall f, match get_item f data with
            | Some K => fewest_routes bn rs f K
            | None => forall i j sol ok q K stop, In (Solved i j sol ok q K stop) rs -> bn i <> f
            end.
Lemma data_step rs data r : data_ok rs data -> data_ok (rs ++ [r]) (add_instance bn data r).
Proof.
  intros (HN & H). destruct r as [i j sol ok q K stop|i j stop]; cbn [add_instance].
  - assert (X : forall data', data' = match get_item (bn i) data with None => set_item (bn i) K data
                 | Some k => if (K <? k)%nat then set_item (bn i) K data else data end ->
       NoDup (map fst data') /\ forall f, get_item f data' = if text_eqb f (bn i) then Some (match get_item (bn i) data with None => K | Some k => Nat.min K k end) else get_item f data).
    { intros data' ->. destruct (get_item (bn i) data) as [k|] eqn:E.
      - destruct (Nat.ltb_spec K k) as [Hk|Hk].
        + split; [now apply nodup_set|]. intros f. rewrite get_set, Nat.min_l by lia. reflexivity.
        + split; [exact HN|]. intros f. rewrite Nat.min_r by lia. destruct (text_eqb f (bn i)) eqn:Ef; [apply text_eqb_true in Ef; now subst f|reflexivity].
      - split; [now apply nodup_set|]. intros f. now rewrite get_set. }
    destruct (X _ eq_refl) as (X1 & X2). split; [exact X1|]. intros f. rewrite X2. clear X X1 X2. specialize (H f).
    destruct (text_eqb f (bn i)) eqn:Ef.
    + apply text_eqb_true in Ef. subst f. destruct (get_item (bn i) data) as [k|].
      * destruct H as ((i' & j' & sol' & ok' & q' & st' & E & Hi) & Hle). split.
        -- destruct (Nat.min_spec K k) as [(Hk & ->)|(Hk & ->)].
           ++ exists i, j, sol, ok, q, stop. split; [reflexivity|]. apply in_or_app. right. now left.
           ++ exists i', j', sol', ok', q', st'. split; [exact E|]. apply in_or_app. now left.
        -- intros i2 j2 s2 ok2 q2 K2 st2 E2 Hi2. apply in_app_or in Hi2. destruct Hi2 as [Hi2|[[= -> -> -> -> -> -> ->]|[]]]; [|lia].
           specialize (Hle i2 j2 s2 ok2 q2 K2 st2 E2 Hi2). lia.
      * split; [exists i, j, sol, ok, q, stop; split; [reflexivity|]; apply in_or_app; right; now left|].
        intros i2 j2 s2 ok2 q2 K2 st2 E2 Hi2. apply in_app_or in Hi2. destruct Hi2 as [Hi2|[[= -> -> -> -> -> -> ->]|[]]]; [|lia].
        now apply H in Hi2.
    + apply text_eqb_false in Ef. destruct (get_item f data) as [k|].
      * destruct H as ((i' & j' & sol' & ok' & q' & st' & E & Hi) & Hle). split.
        -- exists i', j', sol', ok', q', st'. split; [exact E|]. apply in_or_app. now left.
        -- intros i2 j2 s2 ok2 q2 K2 st2 E2 Hi2. apply in_app_or in Hi2. destruct Hi2 as [Hi2|[[= -> -> -> -> -> -> ->]|[]]]; [|congruence].
           now apply (Hle i2 j2 s2 ok2 q2 K2 st2).
      * intros i2 j2 s2 ok2 q2 K2 st2 Hi2. apply in_app_or in Hi2. destruct Hi2 as [Hi2|[[= -> -> -> -> -> -> ->]|[]]]; [now apply H in Hi2|congruence].
  - split; [exact HN|]. intros f. specialize (H f). destruct (get_item f data) as [k|].
    + destruct H as ((i' & j' & sol' & ok' & q' & st' & E & Hi) & Hle). split.
      * exists i', j', sol', ok', q', st'. split; [exact E|]. apply in_or_app. now left.
      * intros i2 j2 s2 ok2 q2 K2 st2 E2 Hi2. apply in_app_or in Hi2. destruct Hi2 as [Hi2|[Hi2|[]]]; [|discriminate].
        now apply (Hle i2 j2 s2 ok2 q2 K2 st2).
    + intros i2 j2 s2 ok2 q2 K2 st2 Hi2. apply in_app_or in Hi2. destruct Hi2 as [Hi2|[Hi2|[]]]; [now apply H in Hi2|discriminate].
Qed.
Lemma data_all rs : data_ok rs (fold_left (add_instance bn) rs []).
Proof.
  induction rs as [|r rs IH] using rev_ind; [|rewrite fold_left_app; now apply data_step].
  split; [constructor|]. intros f. cbn. easy.
Qed.

(** ** The rows *)
Definition solved_here (rs : list report) (f : text) : Prop := exists i j sol ok q K stop, bn i = f /\ In (Solved i j sol ok q K stop) rs.
Definition columns_of (rs : list report) (f : text) (ts : list text) : Prop :=
  alphabetical ts /\ forall a, In a ts <-> exists r, In r rs /\ the_file r = f /\ the_algo r = a.

Lemma row_columns rs f row : results_ok rs (fold_left (add_result bn an) rs []) -> get_item f (fold_left (add_result bn an) rs []) = Some row ->
  columns_of rs f (map fst (sorted_items row)) /\ Forall2 (reported bn an rs f) (map fst (sorted_items row)) (map snd (sorted_items row)).
Proof.
  intros (_ & _ & H3) Hf. destruct (H3 f row Hf) as (S1 & S2 & S3). split.
  - split; [now apply sorted_alphabetical|]. intros a. rewrite <- S2. split; apply Permutation_in; [|apply Permutation_sym]; apply Permutation_map, sorted_perm.
  - assert (Hall : forall a v, In (a, v) (sorted_items row) -> reported bn an rs f a v).
    { intros a v Hin. apply S3. apply get_in; [exact S1|]. exact (Permutation_in _ (sorted_perm row) Hin). }
    revert Hall. generalize (sorted_items row). intros l. induction l as [|[a v] l IH]; intros Hall; cbn [map fst snd]; constructor; [apply Hall; now left|].
    apply IH. intros; apply Hall; now right.
Qed.

Lemma print_all rs items : (forall f row, In (f, row) items -> get_item f (fold_left (add_result bn an) rs []) = Some row) ->
  let p := print_rows (fold_left (add_instance bn) rs []) items in
  match snd p with
  | None => (forall f, In f (map fst items) -> solved_here rs f) /\
            Forall2 (fun f row => exists ts, columns_of rs f ts /\ true_row bn an rs ts f row) (map fst items) (fst p)
  | Some f => exists l1 l2, map fst items = l1 ++ f :: l2 /\ ~ solved_here rs f /\ (forall f', In f' l1 -> solved_here rs f') /\
            Forall2 (fun f row => exists ts, columns_of rs f ts /\ true_row bn an rs ts f row) l1 (fst p)
  end.
Proof.
  induction items as [|[f row] items IH]; intros H; cbn [print_rows map fst snd].
  - split; [easy|constructor].
  - pose proof (proj2 (data_all rs) f) as Hd. destruct (get_item f (fold_left (add_instance bn) rs [])) as [K|].
    + specialize (IH (fun f' row' Hin => H f' row' (or_intror Hin))). cbn zeta in IH. destruct (print_rows _ items) as [rows e]. cbn [fst snd] in *.
      assert (Hrow : exists ts, columns_of rs f ts /\ true_row bn an rs ts f (f, K, map snd (sorted_items row))).
      { exists (map fst (sorted_items row)). destruct (row_columns rs f row (results_all rs) (H f row (or_introl eq_refl))) as (R1 & R2).
        split; [exact R1|]. split; [reflexivity|]. split; [exact Hd|exact R2]. }
      assert (Hs : solved_here rs f). { destruct Hd as ((i & j & sol & ok & q & st & E & Hi) & _). now exists i, j, sol, ok, q, K, st. }
      destruct e as [g|].
      * destruct IH as (l1 & l2 & -> & Hg & H1 & H2). exists (f :: l1), l2. split; [reflexivity|]. split; [exact Hg|].
        split; [intros f' [<-|Hf']; [exact Hs|now apply H1]|]. now constructor.
      * destruct IH as (H1 & H2). split; [intros f' [<-|Hf']; [exact Hs|now apply H1]|]. now constructor.
    + exists [], (map fst items). split; [reflexivity|]. split; [|split; [easy|constructor]].
      intros (i & j & sol & ok & q & K & st & E & Hi). now apply (Hd i j sol ok q K st).
Qed.

(** What is printed after any reports. *)
Lemma table_of_reports rs n : exists names, alphabetical names /\ (forall f, In f names <-> exists r, In r rs /\ the_file r = f) /\
  ((length names <= 1)%nat -> (n <= 1)%nat -> collected_results bn an false n rs = None) /\
  ((1 < length names)%nat \/ (1 < n)%nat -> exists t, collected_results bn an false n rs = Some t /\
    match names with [] => t_titles t = [] | f :: _ => columns_of rs f (t_titles t) end /\
    match t_failed t with
    | None => (forall f, In f names -> solved_here rs f) /\
              Forall2 (fun f row => exists ts, columns_of rs f ts /\ true_row bn an rs ts f row) names (t_rows t)
    | Some f => exists l1 l2, names = l1 ++ f :: l2 /\ ~ solved_here rs f /\ (forall f', In f' l1 -> solved_here rs f') /\
              Forall2 (fun f row => exists ts, columns_of rs f ts /\ true_row bn an rs ts f row) l1 (t_rows t)
    end).
Proof.
  pose proof (results_all rs) as HR. destruct HR as (H1 & H2 & H3). set (results := fold_left (add_result bn an) rs []) in *.
  exists (map fst (sorted_items results)).
  assert (HL : length (map fst (sorted_items results)) = length results) by (rewrite map_length; apply Permutation_length, sorted_perm).
  split; [now apply sorted_alphabetical|]. split.
  { intros f. rewrite <- H2. split; apply Permutation_in; [|apply Permutation_sym]; apply Permutation_map, sorted_perm. }
  assert (HP : forall f row, In (f, row) (sorted_items results) -> get_item f results = Some row).
  { intros f row Hin. apply get_in; [exact H1|]. exact (Permutation_in _ (sorted_perm results) Hin). }
  rewrite HL. split.
  - intros Hr Hn. unfold collected_results. fold results. replace (1 <? length results)%nat with false by lia. replace (1 <? n)%nat with false by lia. reflexivity.
  - intros Hmany. unfold collected_results. fold results. replace ((1 <? length results)%nat || (1 <? n)%nat)%bool with true by lia. cbn [negb andb].
    pose proof (print_all rs (sorted_items results) HP) as HPA. cbn zeta in HPA.
    destruct (print_rows (fold_left (add_instance bn) rs []) (sorted_items results)) as [rows e]. cbn [fst snd] in HPA.
    eexists. split; [reflexivity|]. cbn [t_titles t_failed t_rows]. split; [|exact HPA].
    destruct (sorted_items results) as [|[f row] l]; [reflexivity|]. cbn [map fst]. apply (row_columns rs f row (results_all rs)). apply HP. now left.
Qed.
End Reports.
