(** * Reading explicit matrices *)
From Verif Require Import Spec PyBase M_text M_io Spec_io P_text.
Require Import ZifyBool ZifyNat Lia.

(** ** Positions *)
Definition next_of (f : wformat) (n : nat) (p : nat * nat) : nat * nat :=
  let '(i, j) := p in
  let i := S i in
  match f with
  | LowerRow => if Nat.eqb i j then (0, S j) else (i, j)
  | UpperRow | LowerCol => if Nat.eqb i n then (S (S j), S j) else (i, j)
  | FullMatrix => if Nat.eqb i n then (0, S j) else (i, j)
  | LowerDiagRow => if Nat.eqb i (S j) then (0, S j) else (i, j)
  | UpperDiagRow => if Nat.eqb i n then (S j, S j) else (i, j)
  end%nat.
Definition start_of (f : wformat) : nat * nat :=
  match f with LowerRow => (0, 1) | UpperRow | LowerCol => (1, 0) | _ => (0, 0) end%nat.
Definition end_of (f : wformat) (n : nat) : nat * nat :=
  match f with
  | LowerRow | FullMatrix | LowerDiagRow => (0, n)
  | UpperRow | LowerCol => (n, n - 1)
  | UpperDiagRow => (n, n)
  end%nat.

Fixpoint path (step : nat * nat -> nat * nat) (l : list (nat * nat)) (p q : nat * nat) : Prop :=
  match l with
  | [] => p = q
  | c :: t => p = c /\ path step t (step p) q
  end.

Lemma path_app step l1 l2 p q r : path step l1 p q -> path step l2 q r -> path step (l1 ++ l2) p r.
Proof.
  revert p. induction l1 as [|c l1 IH]; cbn; intros p H1 H2; [now subst|]. destruct H1; split; auto.
Qed.

Lemma path_firstn step l p q k d : path step l p q -> (k < List.length l)%nat -> path step (firstn k l) p (nth k l d).
Proof.
  revert p k. induction l as [|c l IH]; cbn; intros p k H Hk; [lia|]. destruct H as [-> H].
  destruct k as [|k]; cbn; [reflexivity|]. split; [reflexivity|]. apply IH; [exact H|lia].
Qed.

(** One row of positions (a,j), (a+1,j), ..., (b-1,j). *)
Definition run (j a m : nat) : list (nat * nat) := map (fun i => (i, j)) (seq a m).

Lemma path_run step j a m nxt :
  (forall i, (a <= i)%nat -> (S i < a + S m)%nat -> step (i, j) = (S i, j)) -> step ((a + m)%nat, j) = nxt ->
  path step (run j a (S m)) (a, j) nxt.
Proof.
  revert a. induction m as [|m IH]; intros a H1 H2.
  - cbn. split; [reflexivity|]. now rewrite Nat.add_0_r in H2.
  - unfold run in *. change (seq a (S (S m))) with (a :: seq (S a) (S m)). cbn [map path]. split; [reflexivity|].
    rewrite (H1 a) by lia. apply IH.
    + intros i Hi Hi'. apply H1; lia.
    + rewrite <- H2. f_equal. f_equal. lia.
Qed.

(** Rows k0, k0+1, ... *)
Lemma path_rows step (rows : nat -> list (nat * nat)) (first : nat -> nat * nat) k0 m :
  (forall k, (k0 <= k < k0 + m)%nat -> path step (rows k) (first k) (first (S k))) ->
  path step (flat_map rows (seq k0 m)) (first k0) (first (k0 + m)%nat).
Proof.
  revert k0. induction m as [|m IH]; intros k0 H; cbn.
  - now rewrite Nat.add_0_r.
  - apply (path_app step _ _ _ (first (S k0))); [apply H; lia|].
    replace (k0 + S m)%nat with (S k0 + m)%nat by lia. apply IH. intros k Hk. apply H. lia.
Qed.

Definition swap (c : nat * nat) : nat * nat := (snd c, fst c).
(** Positions in reading order. *)
Definition positions (f : wformat) (n : nat) : list (nat * nat) :=
  match f with LowerCol => cells f n | _ => map swap (cells f n) end.

Lemma positions_length f n : List.length (positions f n) = List.length (cells f n).
Proof. destruct f; unfold positions; now rewrite ?map_length. Qed.

Lemma map_swap_rows g l : map swap (flat_map (fun r => row r (g r)) l) = flat_map (fun r => map (fun i => (i, r)) (g r)) l.
Proof.
  induction l as [|r l IH]; [reflexivity|]. cbn. rewrite map_app, IH. f_equal. unfold row. now rewrite map_map.
Qed.

Lemma flat_map_last {A} (g : nat -> list A) n : (1 <= n)%nat -> g (n - 1)%nat = [] -> flat_map g (seq 0 n) = flat_map g (seq 0 (n - 1)).
Proof.
  intros Hn Hg. replace n with (S (n - 1)) at 1 by lia. rewrite seq_S, flat_map_app. cbn.
  rewrite Hg. cbn. now rewrite app_nil_r.
Qed.
Lemma flat_map_first {A} (g : nat -> list A) n : (1 <= n)%nat -> g 0%nat = [] -> flat_map g (seq 0 n) = flat_map g (seq 1 (n - 1)).
Proof. intros Hn Hg. destruct n as [|n]; [lia|]. cbn [seq flat_map]. rewrite Hg. cbn. now rewrite Nat.sub_0_r. Qed.

Ltac step_tac := intros; unfold next_of; match goal with |- context [Nat.eqb ?a ?b] => destruct (Nat.eqb_spec a b) end;
  try (exfalso; lia); try reflexivity; f_equal; lia.

Lemma path_positions f n : (1 <= n)%nat -> path (next_of f n) (positions f n) (start_of f) (end_of f n).
Proof.
  intros Hn. destruct f; unfold positions, cells; rewrite ?map_swap_rows.
  - (* FullMatrix *)
    apply (path_rows _ _ (fun k => (0, k)%nat) 0 n). intros k Hk. destruct n as [|n]; [lia|].
    apply path_run; [step_tac|]. step_tac.
  - (* UpperRow *)
    rewrite flat_map_last by (auto; replace (n - (n - 1 + 1))%nat with 0%nat by lia; reflexivity).
    cut (path (next_of UpperRow n) (flat_map (fun r => map (fun i => (i, r)) (seq (r + 1) (n - (r + 1)))) (seq 0 (n - 1)))
           (S 0, 0)%nat (S (0 + (n - 1)), 0 + (n - 1))%nat).
    { cbn [end_of]. replace (S (0 + (n - 1)), 0 + (n - 1))%nat with (n, n - 1)%nat by (f_equal; lia). trivial. }
    apply (path_rows _ _ (fun k => (S k, k)%nat)). intros k Hk.
    replace (n - (k + 1))%nat with (S (n - k - 2)) by lia. replace (k + 1)%nat with (S k) by lia.
    apply path_run; step_tac.
  - (* LowerRow *)
    rewrite flat_map_first by auto.
    replace (end_of LowerRow n) with (0, 1 + (n - 1))%nat by (cbn; f_equal; lia).
    apply (path_rows _ _ (fun k => (0, k)%nat)). intros k Hk. destruct k as [|k]; [lia|].
    apply path_run; step_tac.
  - (* UpperDiagRow *)
    replace (end_of UpperDiagRow n) with (0 + n, 0 + n)%nat by (cbn; f_equal; lia).
    apply (path_rows _ _ (fun k => (k, k)%nat) 0 n). intros k Hk.
    replace (n - k)%nat with (S (n - k - 1)) by lia. apply path_run; step_tac.
  - (* LowerDiagRow *)
    apply (path_rows _ _ (fun k => (0, k)%nat) 0 n). intros k Hk. replace (k + 1)%nat with (S k) by lia.
    apply path_run; step_tac.
  - (* LowerCol *)
    rewrite flat_map_last by (auto; replace (n - (n - 1 + 1))%nat with 0%nat by lia; reflexivity).
    cut (path (next_of LowerCol n) (flat_map (fun r => map (fun i => (i, r)) (seq (r + 1) (n - (r + 1)))) (seq 0 (n - 1)))
           (S 0, 0)%nat (S (0 + (n - 1)), 0 + (n - 1))%nat).
    { cbn [end_of]. replace (S (0 + (n - 1)), 0 + (n - 1))%nat with (n, n - 1)%nat by (f_equal; lia). trivial. }
    apply (path_rows _ _ (fun k => (S k, k)%nat)). intros k Hk.
    replace (n - (k + 1))%nat with (S (n - k - 2)) by lia. replace (k + 1)%nat with (S k) by lia.
    apply path_run; step_tac.
Qed.

(** Which cells are listed. *)
Definition listed (f : wformat) (n a b : nat) : Prop :=
  (a < n /\ b < n /\
  match f with
  | FullMatrix => True
  | UpperRow => a < b
  | LowerRow | LowerCol => b < a
  | UpperDiagRow => a <= b
  | LowerDiagRow => b <= a
  end)%nat.

Lemma in_rows g l a b : In (a, b) (flat_map (fun r => row r (g r)) l) <-> In a l /\ In b (g a).
Proof.
  rewrite in_flat_map. unfold row. split.
  - intros (r & Hr & H). apply in_map_iff in H as (c & [= <- <-] & Hc). auto.
  - intros [Ha Hb]. exists a. split; [exact Ha|]. apply in_map_iff. eauto.
Qed.

Lemma in_cells f n a b : In (a, b) (cells f n) <-> listed f n a b.
Proof.
  unfold listed. destruct f; unfold cells; try (rewrite in_rows, !in_seq; lia).
  rewrite in_flat_map. unfold col. split.
  - intros (r & Hr & H). apply in_map_iff in H as (c & [= <- <-] & Hc). rewrite in_seq in *. lia.
  - intros Hl. exists b. split; [rewrite in_seq; lia|]. apply in_map_iff. exists a. split; [reflexivity|]. rewrite in_seq. lia.
Qed.

Lemma positions_in_range f n p : In p (positions f n) -> (fst p < n /\ snd p < n)%nat.
Proof.
  intros H. assert (H' : In p (cells f n) \/ In (swap p) (cells f n)).
  { destruct f; unfold positions in H; auto; right;
      (apply in_map_iff in H as ([x y] & <- & H); exact H). }
  destruct p as [x y]. unfold swap in H'. cbn in *. rewrite !in_cells in H'. unfold listed in H'. destruct H'; lia.
Qed.

Section Read.
Context {V : Type}.
Variable parse_float : text -> option V.
Notation rstate := (@rstate V).

Lemma next_ij_of (s : rstate) f n p : rs_ewf s = Some (format_name f) -> next_ij s n p = next_of f n p.
Proof.
  intros E. destruct p as [i j]. unfold next_ij, ewf_is. rewrite E.
  destruct f; cbn [format_name];
    repeat match goal with |- context [text_eqb ?a ?b] => let v := eval vm_compute in (text_eqb a b) in change (text_eqb a b) with v end;
    cbn [orb next_of]; rewrite ?Nat.add_1_r; reflexivity.
Qed.

Definition write_at (D : nat -> nat -> V) (pv : (nat * nat) * V) : nat -> nat -> V :=
  set_entry (set_entry D (fst (fst pv)) (snd (fst pv)) (snd pv)) (snd (fst pv)) (fst (fst pv)) (snd pv).
Definition writes (l : list (nat * nat)) (ws : list V) D := fold_left write_at (combine l ws) D.

Lemma read_weights_path f n toks ws l (s : rstate) D q :
  rs_ewf s = Some (format_name f) -> rs_D s = Some (n, D) ->
  Forall2 (fun t w => parse_float t = Some w) toks ws -> List.length toks = List.length l ->
  path (next_of f n) l (rs_ij s) q -> (forall p, In p l -> (fst p < n /\ snd p < n)%nat) ->
  read_weights parse_float s toks = Ok (set_matrix s q (Some (n, writes l ws D))).
Proof.
  intros Ef ED HF. revert l s D Ef ED. induction HF as [|t w toks ws Ht HF IH]; intros l s D Ef ED Hlen Hp Hr.
  - destruct l as [|c l]; [|discriminate]. cbn in *. rewrite <- Hp. unfold writes. cbn. rewrite <- ED.
    destruct s; reflexivity.
  - destruct l as [|c l]; [discriminate|]. cbn [path] in Hp. destruct Hp as [Ec Hp].
    cbn [read_weights]. unfold read_weight at 1. rewrite ED. destruct (rs_ij s) as [i j] eqn:Eij. subst c.
    rewrite Ht. cbn [or_raise bind]. destruct (Hr (i, j)) as [Hi Hj]; [now left|]. cbn in Hi, Hj.
    replace ((i <? n)%nat && (j <? n)%nat) with true by (symmetry; apply andb_true_intro; split; now apply Nat.ltb_lt).
    cbn [bind]. rewrite (next_ij_of s f) by exact Ef. erewrite IH; [reflexivity|exact Ef|reflexivity| | |].
    + cbn in Hlen. lia.
    + exact Hp.
    + intros p Hin. apply Hr. now right.
Qed.

(** Anything but the right number of weights raises. *)
Lemma read_weights_app (s : rstate) t1 t2 :
  read_weights parse_float s (t1 ++ t2) = (do s1 <- read_weights parse_float s t1; read_weights parse_float s1 t2).
Proof.
  revert s. induction t1 as [|t t1 IH]; intros s; [reflexivity|]. cbn [app read_weights].
  destruct (read_weight parse_float s t) as [s1|e]; [|reflexivity]. cbn. apply IH.
Qed.

Lemma parse_all toks : (exists ws, Forall2 (fun t w => parse_float t = Some w) toks ws) \/
  exists t1 t t2, toks = t1 ++ t :: t2 /\ parse_float t = None /\ exists ws, Forall2 (fun t w => parse_float t = Some w) t1 ws.
Proof.
  induction toks as [|t toks [(ws & H)|(t1 & t' & t2 & -> & Hn & ws & H)]].
  - left. exists []. constructor.
  - destruct (parse_float t) as [w|] eqn:E; [left; exists (w :: ws); now constructor|].
    right. exists [], t, toks. split; [reflexivity|]. split; [exact E|]. exists []. constructor.
  - destruct (parse_float t) as [w|] eqn:E.
    + right. exists (t :: t1), t', t2. split; [reflexivity|]. split; [exact Hn|]. exists (w :: ws). now constructor.
    + right. exists [], t, (t1 ++ t' :: t2). split; [reflexivity|]. split; [exact E|]. exists []. constructor.
Qed.

Lemma Forall2_len {A B} (R : A -> B -> Prop) l l' : Forall2 R l l' -> List.length l = List.length l'.
Proof. induction 1; cbn; lia. Qed.

(** The state after any number of weights: an exception, or the position is the next one of the path. *)
Lemma read_weights_any f n toks l (s : rstate) D q :
  rs_ewf s = Some (format_name f) -> rs_D s = Some (n, D) -> path (next_of f n) l (rs_ij s) q ->
  (forall p, In p l -> (fst p < n /\ snd p < n)%nat) -> (n <= fst q \/ n <= snd q)%nat ->
  (exists e, read_weights parse_float s toks = Raise e) \/
  (exists ws D', Forall2 (fun t w => parse_float t = Some w) toks ws /\ (List.length toks <= List.length l)%nat /\
     read_weights parse_float s toks = Ok (set_matrix s (nth (List.length toks) l q) (Some (n, D')))).
Proof.
  intros Ef ED. revert l s D Ef ED. induction toks as [|t toks IH]; intros l s D Ef ED Hp Hr Hq.
  - right. exists [], D. split; [constructor|]. split; [cbn; lia|]. cbn.
    assert (E : rs_ij s = nth 0 l q). { destruct l; cbn in *; [exact Hp|apply Hp]. }
    rewrite <- E, <- ED. destruct s; reflexivity.
  - cbn [read_weights]. unfold read_weight at 1 2. rewrite ED.
    destruct (rs_ij s) as [i j] eqn:Eij. destruct (parse_float t) as [w|] eqn:Et.
    2:{ left. eexists. reflexivity. }
    cbn [or_raise bind]. destruct ((i <? n)%nat && (j <? n)%nat) eqn:Ein.
    2:{ left. eexists. reflexivity. }
    cbn [bind]. destruct l as [|c l]; cbn [path] in Hp.
    { subst q. cbn in Hq. lia. }
    destruct Hp as [Ec Hp]. subst c. rewrite (next_ij_of s f) by exact Ef.
    match goal with |- context [read_weights parse_float ?s1 toks] => set (s1' := s1) end.
    destruct (IH l s1' (set_entry (set_entry D i j w) j i w)) as [[e He]|(ws & D' & HF & Hl & He)]; try reflexivity.
    + exact Ef.
    + exact Hp.
    + intros p Hin. apply Hr. now right.
    + exact Hq.
    + left. exists e. exact He.
    + right. exists (w :: ws), D'. split; [now constructor|]. split; [cbn; lia|]. rewrite He. reflexivity.
Qed.

(** ** The entries written *)
Lemma write_at_eq D i j v a b : write_at D ((i, j), v) a b = if (Nat.eqb a j && Nat.eqb b i) || (Nat.eqb a i && Nat.eqb b j) then v else D a b.
Proof. unfold write_at, set_entry. cbn. destruct (Nat.eqb a j && Nat.eqb b i); [reflexivity|]. reflexivity. Qed.

Lemma writes_sym (M : nat -> nat -> V) n l ws D :
  (forall a b, (a < n -> b < n -> M a b = M b a)%nat) ->
  Forall2 (fun p w => (fst p < n /\ snd p < n)%nat /\ w = M (fst p) (snd p)) l ws ->
  forall a b, (a < n)%nat -> (b < n)%nat ->
    writes l ws D a b = if existsb (fun p => (Nat.eqb a (fst p) && Nat.eqb b (snd p)) || (Nat.eqb b (fst p) && Nat.eqb a (snd p))) l
                        then M a b else D a b.
Proof.
  intros Hs HF. revert D. unfold writes. induction HF as [|[i j] w l ws [Hr Hw] HF IH]; intros D a b Ha Hb; [reflexivity|].
  cbn [combine fold_left existsb fst snd] in *. rewrite IH by assumption. rewrite write_at_eq.
  destruct (existsb _ l); [now rewrite orb_true_r|]. rewrite orb_false_r.
  destruct (Nat.eqb_spec a i), (Nat.eqb_spec b j), (Nat.eqb_spec a j), (Nat.eqb_spec b i); cbn; subst; auto; apply Hs; lia.
Qed.

End Read.
