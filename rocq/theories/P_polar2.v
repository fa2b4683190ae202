(** * Sweeps from coordinates *)
From Coq Require Import ZifyBool ZifyNat Lia.
From Verif Require Import Spec Spec_inter Spec_savings Spec_rfcs PyBase M_util M_psavings M_sweep Spec_sweep M_polar Spec_polar P_base P_sweep5 P_sweep6 P_polar.

Lemma sweep_at_points argsort pts ceps seps D d C L f minimize_K dir s :
  let N := length pts in
  sorts argsort -> planar pts -> (2 <= N)%nat -> solver N D f -> served_alone N D d C L ceps seps ->
  (forall i, (1 <= i < N)%nat -> 0 <= d i) ->
  (match s with SeedNode n => Nat.modulo n N <> 0%nat | SeedPositions ps => ps <> [] /\ Forall (fun p => (p < N - 1)%nat) ps | _ => True end) ->
  exists order rs,
    Permutation order (seq 1 (N - 1)) /\
    (forall i j, (i < j < length order)%nat ->
       not_later (px pts (nth i order 0%nat)) (py pts (nth i order 0%nat)) (px pts (nth j order 0%nat)) (py pts (nth j order 0%nat))) /\
    (exists fuel0, forall fuel, (fuel0 <= fuel)%nat ->
       sweep_init_at argsort pts ceps seps D d C L minimize_K f N dir s fuel = Some (SwReturns (Some (encode rs)))) /\
    serves N D d C L ceps seps rs /\
    exists ccw p, goes dir ccw /\ sweep_gives ceps seps D d C L f order ccw p rs /\
      match s with
      | ClosestToDepot => (p < N - 1)%nat /\ forall n, (1 <= n < N)%nat ->
          let c := nth p order 0%nat in px pts c * px pts c + py pts c * py pts c <= px pts n * px pts n + py pts n * py pts n
      | SmallestAngle => p = 0%nat
      | BestAlternative => (p < N - 1)%nat
      | SeedNode n => nth_error order p = Some (Nat.modulo n N)
      | SeedPositions ps => In p ps
      end.
Proof.
  intros N Hsort Hpl HN Hf Ha Hd Hs.
  destruct (read_points argsort Hsort pts) as (rho & order & E & HP & Hlr & Hrho & Hord); [intros ->; cbn in HN; lia|exact Hpl|].
  assert (Hlo : length order = (N - 1)%nat) by (rewrite (Permutation_length HP), seq_length; reflexivity).
  destruct (init_ok ceps seps N D d C L f order Hf Ha HP Hd minimize_K rho dir s HN) as (fuel0 & rs & E1 & S & (ccw & p & G & St & Sg) & _).
  { destruct s; cbn [seed_ok]; try exact I; try exact Hs. rewrite Hlr. exact Hlo. }
  exists order, rs. split; [exact HP|]. split; [exact Hord|]. split; [|split; [exact S|]].
  - exists fuel0. intros fuel Hfu. unfold sweep_init_at. rewrite E. now apply E1.
  - exists ccw, p. split; [exact G|]. split; [exact Sg|]. destruct s; cbn [starts_at] in St; try exact St.
    destruct St as (Hp & St). split; [exact Hp|]. intros n Hn. cbv zeta.
    assert (Hin : In n order) by (apply (Permutation_in _ (Permutation_sym HP)), in_seq; lia).
    destruct (In_nth order n 0%nat Hin) as (q & Hq & Eq). destruct (St q ltac:(lia)) as (X & _).
    rewrite (Hrho p ltac:(lia)), (Hrho q ltac:(lia)), Eq in X. exact X.
Qed.

(** ** An argsort *)
From Coq Require Import Sorted.
Fixpoint put (x : fraction * nat) (l : list (fraction * nat)) : list (fraction * nat) :=
  match l with
  | [] => [x]
  | y :: t => if frac_leb (fst x) (fst y) then x :: y :: t else y :: put x t
  end.
Definition by_insertion (l : list fraction) : list nat := map snd (fold_right put [] (combine l (seq 0 (length l)))).

Definition kle (a b : fraction * nat) : Prop := frac_leb (fst a) (fst b) = true.
Lemma put_perm x l : Permutation (put x l) (x :: l).
Proof. induction l as [|y t IH]; cbn; [reflexivity|]. destruct (frac_leb _ _); [reflexivity|]. rewrite IH. apply perm_swap. Qed.
Lemma frac_trans a b c : 0 < snd a -> 0 < snd b -> 0 < snd c -> frac_leb a b = true -> frac_leb b c = true -> frac_leb a c = true.
Proof. unfold frac_leb. destruct a as [p q], b as [r s], c as [t u]. cbn. intros. rewrite Z.leb_le in *. nia. Qed.
Lemma put_sorted x l : Forall (fun a : fraction * nat => 0 < snd (fst a)) (x :: l) -> StronglySorted kle l -> StronglySorted kle (put x l).
Proof.
  intros HP HS. induction l as [|y t IH]; cbn.
  - constructor; [constructor|constructor].
  - inversion HP as [|? ? Hx HP']; inversion HP' as [|? ? Hy HP'']; subst. inversion HS as [|? ? HS' HF]; subst.
    destruct (frac_leb (fst x) (fst y)) eqn:E.
    + constructor; [exact HS|]. constructor; [exact E|]. rewrite Forall_forall in *. intros z Hz. unfold kle in *.
      eapply frac_trans; [exact Hx|exact Hy|apply HP''; exact Hz|exact E|apply HF; exact Hz].
    + constructor; [apply IH; [constructor; assumption|exact HS']|]. rewrite (put_perm x t). constructor; [|exact HF].
      unfold kle, frac_leb in *. lia.
Qed.
Lemma put_all l : Permutation (fold_right put [] l) l.
Proof. induction l as [|x l IH]; cbn; [reflexivity|]. rewrite put_perm. now apply perm_skip. Qed.
Lemma put_all_sorted l : Forall (fun a : fraction * nat => 0 < snd (fst a)) l -> StronglySorted kle (fold_right put [] l).
Proof.
  induction 1 as [|x l Hx HF IH]; cbn; [constructor|]. apply put_sorted; [|exact IH]. constructor; [exact Hx|]. now rewrite put_all.
Qed.
Lemma sorted_nth (l : list (fraction * nat)) x : StronglySorted kle l -> forall i j, (i < j < length l)%nat -> kle (nth i l x) (nth j l x).
Proof.
  induction 1 as [|a l HS IH HF]; intros i j Hij; [cbn in Hij; lia|]. cbn [length] in Hij. destruct j as [|j]; [lia|]. destruct i as [|i].
  - cbn [nth]. rewrite Forall_forall in HF. apply HF, nth_In. lia.
  - cbn [nth]. apply IH. lia.
Qed.
Lemma map_snd_combine {A B} (l : list A) (m : list B) : length l = length m -> map snd (combine l m) = m.
Proof. revert m. induction l as [|a l IH]; intros [|b m] H; try discriminate; [reflexivity|]. cbn. f_equal. apply IH. now injection H. Qed.

Lemma by_insertion_sorts : sorts by_insertion.
Proof.
  intros l HF. unfold by_insertion. set (c := combine l (seq 0 (length l))).
  assert (Hc : Forall (fun a : fraction * nat => 0 < snd (fst a)) c).
  { apply Forall_forall. intros [a i] Ha. apply in_combine_l in Ha. rewrite Forall_forall in HF. now apply HF. }
  assert (Hat : forall a, In a c -> fst a = nth (snd a) l (0, 1)).
  { intros [a i] Ha. cbn. destruct (In_nth c (a, i) ((0, 1), 0%nat) Ha) as (k & Hk & E). unfold c in Hk, E.
    rewrite combine_length, seq_length, Nat.min_id in Hk. rewrite combine_nth in E by now rewrite seq_length. rewrite seq_nth in E by exact Hk. injection E as <- <-. reflexivity. }
  split.
  - rewrite put_all. unfold c. now rewrite map_snd_combine by now rewrite seq_length.
  - intros i j Hij. assert (Hlen : length (fold_right put [] c) = length l).
    { rewrite (Permutation_length (put_all c)). unfold c. rewrite combine_length, seq_length. lia. }
    assert (X : forall k, nth k (map snd (fold_right put [] c)) 0%nat = snd (nth k (fold_right put [] c) ((0, 1), 0%nat))).
    { intros k. change 0%nat with (snd ((0, 1) : fraction, 0%nat)) at 1. apply map_nth. }
    rewrite !X.
    pose proof (sorted_nth _ ((0, 1), 0%nat) (put_all_sorted c Hc) i j ltac:(lia)) as HK. unfold kle in HK.
    rewrite !Hat in HK; [exact HK| |]; apply (Permutation_in _ (put_all c)), nth_In; lia.
Qed.
