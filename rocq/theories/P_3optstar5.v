(** * Proofs about 3-opt*: customers, cost and feasibility after every move *)
From Coq Require Import ZifyBool ZifyNat.
From Verif Require Import Spec Spec_inter PyBase M_util M_psavings M_3optstar P_base P_util P_intra P_3optstar P_3optstar2 P_3optstar3 P_3optstar4.

Definition result (ch : list chunk) : chunk := fold_left glue (tl ch) (hd (Cl []) ch).
Definition whole (A B C E : chunk) : chunk := glue (glue (glue A B) C) E.
Definition rts (c : chunk) : list (list nat) := match c with Cl s => [] | Op _ rs _ => rs end.

Definition Lc D (u : list nat) := path_cost D (0%nat :: u).
Definition Rc D (v : list nat) := path_cost D (v ++ [0%nat]).
Lemma RC D u v : route_cost D (u ++ v) = Lc D u + D (last u 0%nat) (hd 0%nat v) + Rc D v.
Proof.
  unfold route_cost, Lc, Rc. rewrite <- app_assoc. replace (0%nat :: u ++ v ++ [0%nat]) with ((0%nat :: u) ++ (v ++ [0%nat])) by reflexivity.
  rewrite path_cost_app by (destruct v; discriminate). rewrite last_cons. now destruct v.
Qed.
Lemma RA D s v : s <> [] -> Rc D (s ++ v) = path_cost D s + D (last s 0%nat) (hd 0%nat v) + Rc D v.
Proof.
  intros H. unfold Rc. rewrite <- app_assoc, path_cost_app by (try exact H; destruct v; discriminate). now destruct v.
Qed.
Lemma Lc_rev D u : symmetric D -> Lc D (rev u) = Rc D u.
Proof. intros H. unfold Lc, Rc. rewrite <- (path_cost_rev D (u ++ [0%nat]) H), rev_app_distr. reflexivity. Qed.
Lemma Rc_rev D u : symmetric D -> Rc D (rev u) = Lc D u.
Proof. intros H. rewrite <- (Lc_rev D (rev u) H), rev_involutive. reflexivity. Qed.
Lemma hd_rev00 (s : list nat) : hd 0%nat (rev s) = last s 0%nat.
Proof. destruct s as [|x s]; [reflexivity|]. apply hd_rev0. discriminate. Qed.
Lemma last_rev00 (s : list nat) : last (rev s) 0%nat = hd 0%nat s.
Proof. destruct s as [|x s]; [reflexivity|]. apply last_rev0. discriminate. Qed.
Lemma rev_ne {A} (s : list A) : s <> [] -> rev s <> [].
Proof. intros H E. apply H. rewrite <- (rev_involutive s), E. reflexivity. Qed.
Lemma routes_cost_app D r1 r2 : routes_cost D (r1 ++ r2) = routes_cost D r1 + routes_cost D r2.
Proof. unfold routes_cost. now rewrite map_app, sumZ_app. Qed.
Lemma routes_cost_cons D r rs : routes_cost D (r :: rs) = route_cost D r + routes_cost D rs.
Proof. reflexivity. Qed.
Lemma routes_cost_nil D : routes_cost D [] = 0. Proof. reflexivity. Qed.
Lemma routes_cost_rvr D rs : symmetric D -> routes_cost D (rvr rs) = routes_cost D rs.
Proof.
  intros H. unfold rvr, routes_cost. rewrite map_rev, sumZ_rev, map_map. f_equal. apply map_ext. intros r. now apply route_cost_rev.
Qed.
Lemma co_app (l1 l2 : list nat) x : count_occ Nat.eq_dec (l1 ++ l2) x = (count_occ Nat.eq_dec l1 x + count_occ Nat.eq_dec l2 x)%nat.
Proof. apply count_occ_app. Qed.
Lemma co_rev (l : list nat) x : count_occ Nat.eq_dec (rev l) x = count_occ Nat.eq_dec l x.
Proof. apply Permutation_count_occ. apply Permutation_sym, Permutation_rev. Qed.
Lemma co_rvr rs x : count_occ Nat.eq_dec (concat (rvr rs)) x = count_occ Nat.eq_dec (concat rs) x.
Proof.
  unfold rvr. induction rs as [|r rs IH]; [reflexivity|]. cbn [map rev concat]. rewrite concat_app, !co_app, IH. cbn [concat]. rewrite app_nil_r, co_rev. lia.
Qed.
Lemma Forall_rvr (P : list nat -> Prop) rs : (forall r, P r -> P (rev r)) -> Forall P rs -> Forall P (rvr rs).
Proof. intros H HF. unfold rvr. apply Forall_rev, Forall_map. eapply Forall_impl; [exact H|exact HF]. Qed.
Lemma rvr_app r1 r2 : rvr (r1 ++ r2) = rvr r2 ++ rvr r1.
Proof. unfold rvr. now rewrite map_app, rev_app_distr. Qed.
Lemma rvr_cons r rs : rvr (r :: rs) = rvr rs ++ [rev r].
Proof. reflexivity. Qed.

(** The feasibility test without the shortcuts for limits that are not set. *)
Fixpoint chkP (ceps seps : Z) (D : matrix) (C L : limit) (n : nat -> nat) (cum_d cum_l : nat -> Z) (dep : edge -> edge -> bool)
         (prev : edge) (edges : list edge) (rd rl : Z) : Prop :=
  match edges with
  | [] => True
  | cur :: t =>
      let rd := (if dep prev cur then cum_d (fst cur) else rd) + cum_d (snd cur) in
      let rl := (if dep prev cur then cum_l (fst cur) else rl) + (D (n (fst cur)) (n (snd cur)) + cum_l (snd cur)) in
      within C ceps rd /\ within L seps rl /\ chkP ceps seps D C L n cum_d cum_l dep cur t rd rl
  end.
Lemma unset_within lim eps x : is_set lim = false -> within lim eps x.
Proof. destruct lim as [c|]; cbn; [|easy]. unfold is_set. cbn. destruct (Z.eqb_spec c 0); [lia|discriminate]. Qed.
Lemma chk_iff ceps seps D C L p n cum_d cum_l ld12 ld34 : forall edges prev rd rl rd' rl',
  (is_set C = true -> rd = rd') -> (is_set L = true -> rl = rl') ->
  check_edges ceps seps D C L p n cum_d cum_l ld12 ld34 prev edges rd rl = true <->
  chkP ceps seps D C L n cum_d cum_l (depot_before p ld12 ld34) prev edges rd' rl'.
Proof.
  induction edges as [|cur t IH]; intros prev rd rl rd' rl' Hd Hl; cbn [check_edges chkP]; [easy|].
  set (dp := depot_before p ld12 ld34 prev cur).
  assert (EC : forall x y, (is_set C = true -> x = y) -> (exceeds C ceps x = true <-> ~ within C ceps y)).
  { intros x y H. destruct (is_set C) eqn:S; [rewrite H by reflexivity; apply P_base.exceeds_true|].
    rewrite exceeds_true. split; intros G; exfalso; apply G; now apply unset_within. }
  assert (EL : forall x y, (is_set L = true -> x = y) -> (exceeds L seps x = true <-> ~ within L seps y)).
  { intros x y H. destruct (is_set L) eqn:S; [rewrite H by reflexivity; apply P_base.exceeds_true|].
    rewrite exceeds_true. split; intros G; exfalso; apply G; now apply unset_within. }
  set (d1 := if is_set C then (if dp && is_set C then cum_d (fst cur) else rd) + cum_d (snd cur) else (if dp && is_set C then cum_d (fst cur) else rd)).
  set (d2 := (if dp then cum_d (fst cur) else rd') + cum_d (snd cur)).
  assert (Ed : is_set C = true -> d1 = d2) by (intros S; unfold d1, d2; rewrite S, Hd by exact S; destruct dp; reflexivity).
  set (l1 := if is_set L then (if dp && is_set L then cum_l (fst cur) else rl) + (D (n (fst cur)) (n (snd cur)) + cum_l (snd cur)) else (if dp && is_set L then cum_l (fst cur) else rl)).
  set (l2 := (if dp then cum_l (fst cur) else rl') + (D (n (fst cur)) (n (snd cur)) + cum_l (snd cur))).
  assert (El : is_set L = true -> l1 = l2) by (intros S; unfold l1, l2; rewrite S, Hl by exact S; destruct dp; reflexivity).
  specialize (EC d1 d2 Ed). specialize (EL l1 l2 El).
  destruct (exceeds C ceps d1); [split; [discriminate|intros (G & _); exfalso; now apply EC]|].
  destruct (exceeds L seps l1); [split; [discriminate|intros (_ & G & _); exfalso; now apply EL]|].
  rewrite (IH cur d1 l1 d2 l2 Ed El).
  assert (within C ceps d2) by (apply P_base.exceeds_within; destruct (exceeds C ceps d2) eqn:X; [apply P_base.exceeds_true in X; now apply EC in X|reflexivity]).
  assert (within L seps l2) by (apply P_base.exceeds_within; destruct (exceeds L seps l2) eqn:X; [apply P_base.exceeds_true in X; now apply EL in X|reflexivity]).
  tauto.
Qed.

Lemma demand_nn d (dN : forall x, 0 <= d x) l : 0 <= demand d l.
Proof. induction l as [|x l IH]; [cbn; lia|]. rewrite demand_cons. pose proof (dN x). lia. Qed.
Lemma path_nn D (DN : nonneg_matrix D) l : 0 <= path_cost D l.
Proof. induction l as [|x [|y l] IH]; [cbn; lia|cbn; lia|]. rewrite path_cost_cons2. pose proof (DN x y). lia. Qed.
Lemma within_mono lim eps x y : within lim eps y -> x <= y -> within lim eps x.
Proof. destruct lim; cbn; [|easy]. intros H Hx Hz. specialize (H Hz). lia. Qed.

Section Moves.
  Variables (ra re : list (list nat)) (pa pe : list nat) (B C : chunk) (i j k : nat).
  Hypothesis Hpa : customers_only pa.
  Hypothesis Hpe : customers_only pe.
  Hypothesis WB : wfc B.
  Hypothesis WC : wfc C.
  Hypothesis SB : solid B.
  Hypothesis SC : solid C.
  Let A := Op [] ra pa.
  Let E := Op pe re [].
  Hypothesis Hijk : (i < j < k)%nat.
  Variables (ld12 ld34 : option nat).
  Hypothesis H12 : match ld12 with Some x => is_op B = true /\ (i < x <= j)%nat | None => is_op B = false end.
  Hypothesis H34 : match ld34 with Some x => is_op C = true /\ (j < x <= k)%nat | None => is_op C = false end.
  Variables (D : matrix) (d : demands).
  Hypothesis HD : symmetric D.
  Let n := tab [last pa 0%nat; fst_ B; lst_ B; fst_ C; lst_ C; hd 0%nat pe] (last pa 0%nat).
  Let cum_d := tab [demand d pa; demand d (lpart B); demand d (rpart B); demand d (lpart C); demand d (rpart C); demand d pe] 0.
  Let cum_l := tab [path_cost D (0%nat :: pa); lcost D B; rcost D B; lcost D C; rcost D C; path_cost D (pe ++ [0%nat])] 0.
  Let dep := depot_before (end_p i j k) ld12 ld34.

  Lemma perms : Forall (fun ch => exists Rg, result ch = Op [] Rg [] /\ Permutation (concat Rg) (concat (rts (whole A B C E)))) (chains_for A B C E).
  Proof.
    unfold chains_for, chains, result, A, E. clear. destruct B as [pb|b1 rb b2], C as [pc|cc1 rc cc2]; cbn [is_op firstn skipn app]; repeat apply Forall_cons; try apply Forall_nil;
      (eexists; split; [reflexivity|]);
      cbn [fold_left tl hd glue c1 c2 rv app whole rts];
      apply (Permutation_count_occ Nat.eq_dec); intros x;
      repeat (rewrite ?concat_app, ?rvr_app, ?rvr_cons, ?app_nil_r; cbn [concat app]); rewrite ?rev_app_distr; rewrite ?co_app, ?co_rev, ?co_rvr; lia.
  Qed.

  Ltac norm := repeat (rewrite ?routes_cost_app, ?rvr_app, ?rvr_cons, ?rev_app_distr, ?app_nil_r, ?routes_cost_cons, ?routes_cost_nil, <- ?app_assoc; cbn [app rev]).
  Ltac ne1 := first [assumption | apply rev_ne; assumption].
  Ltac costs1 := rewrite ?RC; repeat (rewrite RA by ne1); repeat (rewrite hd_app_ne by ne1); repeat (rewrite last_app_ne by ne1);
    rewrite ?Lc_rev, ?Rc_rev, ?path_cost_rev, ?hd_rev00, ?last_rev00 by exact HD; rewrite ?routes_cost_rvr by exact HD.
  Ltac syms := repeat match goal with |- context [D ?x ?y] => lazymatch goal with _ : D x y = D y x |- _ => fail | _ => pose proof (HD x y) end end.

  Lemma costs : Forall2 (fun m ch => routes_cost D (rts (result ch)) = routes_cost D (rts (whole A B C E)) + added_weights D n (fst m) -
                                       (D (n 0%nat) (n 1%nat) + D (n 2%nat) (n 3%nat) + D (n 4%nat) (n 5%nat)))
                  (moves_for (is_op B) (is_op C)) (chains_for A B C E).
  Proof.
    unfold moves_for, moves_3optstar, chains_for, chains, result, A, E, n. clear - HD SB SC.
    destruct B as [pb|b1 rb b2], C as [pc|cc1 rc cc2]; cbn [is_op firstn skipn app solid] in *; repeat apply Forall2_cons; try apply Forall2_nil;
      cbn [fold_left tl hd glue c1 c2 rv app whole rts fst snd tab nth fst_ lst_ added_weights map sumZ fold_right];
      unfold added_weights; cbn [fold_left tl hd glue c1 c2 rv app whole rts fst snd tab nth fst_ lst_ added_weights map sumZ fold_right];
      norm; costs1; syms; lia.
  Qed.

  Variables (CC LL : limit) (ceps seps : Z).
  Notation feas := (feasible D d CC LL ceps seps).
  Lemma feas_rev r : feas r -> feas (rev r).
  Proof. unfold feasible. now rewrite demand_rev, route_cost_rev. Qed.
  Ltac depsolve := unfold depot_before, end_p, tab; cbn [fst snd nth Nat.eqb orb]; lia.
  Ltac deps H := repeat match type of H with context [depot_before ?p ?l1 ?l2 ?e ?f] =>
                   first [ replace (depot_before p l1 l2 e f) with true in H by (symmetry; depsolve)
                         | replace (depot_before p l1 l2 e f) with false in H by (symmetry; depsolve) ] end.
  Ltac closew := match goal with
    | H : within ?lim ?eps ?y |- within ?lim ?eps ?x =>
        replace x with y; [exact H|]; (rewrite ?demand_app, ?demand_rev; lia) || (costs1; unfold Lc, Rc; syms; lia)
    end.
  Lemma feas_ok : Forall2 (fun m ch => chkP ceps seps D CC LL n cum_d cum_l dep (0, 0)%nat (fst m) 0 0 ->
                                     Forall feas (rts (whole A B C E)) -> Forall feas (rts (result ch)))
                  (moves_for (is_op B) (is_op C)) (chains_for A B C E).
  Proof.
    unfold moves_for, moves_3optstar, chains_for, chains, result, A, E, n, cum_d, cum_l, dep. clear - HD SB SC H12 H34 Hijk.
    destruct ld12 as [x12|], ld34 as [x34|]; destruct B as [pb|b1 rb b2], C as [pc|cc1 rc cc2]; cbn [is_op firstn skipn app solid] in *; try (exfalso; intuition congruence);
    repeat apply Forall2_cons; try apply Forall2_nil; cbn [fst snd chkP]; intros H HF; deps H;
      cbn [tab nth fst_ lst_ lpart rpart lcost rcost] in H; cbn [fold_left tl hd glue c1 c2 rv app whole rts] in *;
      destruct H as (H1 & H2 & H3 & H4 & H5 & H6 & _);
      repeat (rewrite ?rvr_app, ?rvr_cons, ?rev_app_distr, ?app_nil_r, <- ?app_assoc in *; cbn [app rev] in *);
      repeat (rewrite ?Forall_app, ?Forall_cons_iff); repeat (rewrite ?Forall_app, ?Forall_cons_iff in HF);
      repeat match goal with |- _ /\ _ => split end; try tauto; try apply Forall_nil;
      try (apply Forall_rvr; [exact feas_rev|tauto]);
      try (split; closew).
  Qed.

  Hypothesis DN : nonneg_matrix D.
  Hypothesis dN : forall x, 0 <= d x.
  Ltac nns := repeat match goal with |- context [demand d ?l] => lazymatch goal with _ : 0 <= demand d l |- _ => fail | _ => pose proof (demand_nn d dN l) end end;
              repeat match goal with |- context [path_cost D ?l] => lazymatch goal with _ : 0 <= path_cost D l |- _ => fail | _ => pose proof (path_nn D DN l) end end;
              repeat match goal with |- context [D ?x ?y] => lazymatch goal with _ : 0 <= D x y |- _ => fail | _ => pose proof (DN x y) end end.
  Ltac depg := repeat match goal with |- context [depot_before ?p ?l1 ?l2 ?e ?f] =>
                   first [ replace (depot_before p l1 l2 e f) with true by (symmetry; depsolve)
                         | replace (depot_before p l1 l2 e f) with false by (symmetry; depsolve) ] end.
  Ltac closem := match goal with
    | H : feas _ |- _ => 
        apply (within_mono _ _ _ _ (proj1 H)); (rewrite ?demand_app, ?demand_rev; nns; lia)
    | H : feas _ |- _ => 
        apply (within_mono _ _ _ _ (proj2 H)); (costs1; unfold Lc, Rc; syms; nns; lia)
    end.
  Lemma feas_complete : Forall2 (fun m ch => Forall feas (rts (result ch)) ->
                                     chkP ceps seps D CC LL n cum_d cum_l dep (0, 0)%nat (fst m) 0 0)
                  (moves_for (is_op B) (is_op C)) (chains_for A B C E).
  Proof.
    unfold moves_for, moves_3optstar, chains_for, chains, result, A, E, n, cum_d, cum_l, dep. clear - HD SB SC H12 H34 Hijk DN dN.
    destruct ld12 as [x12|], ld34 as [x34|]; destruct B as [pb|b1 rb b2], C as [pc|cc1 rc cc2]; cbn [is_op firstn skipn app solid] in *; try (exfalso; intuition congruence);
    repeat apply Forall2_cons; try apply Forall2_nil; cbn [fst snd chkP]; intros HF; depg;
      cbn [tab nth fst_ lst_ lpart rpart lcost rcost]; cbn [fold_left tl hd glue c1 c2 rv app whole rts] in HF;
      repeat (rewrite ?rvr_app, ?rvr_cons, ?rev_app_distr, ?app_nil_r, <- ?app_assoc in HF; cbn [app rev] in HF);
      repeat (rewrite ?Forall_app, ?Forall_cons_iff in HF);
      decompose [and] HF; clear HF;
      repeat match goal with |- _ /\ _ => split end; try exact I; closem.
  Qed.
End Moves.
