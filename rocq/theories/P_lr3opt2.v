(** * Proofs about lr3opt: the penalties of a 3-opt* move *)
From Coq Require Import ZifyBool ZifyNat.
From Verif Require Import Spec Spec_inter Spec_3optstar PyBase M_util M_psavings M_3optstar P_base P_util P_cvrp P_intra P_scan P_3optstar P_3optstar2 P_3optstar3 P_3optstar4 P_3optstar5.

(** The penalties of a list of routes, for any penalty functions of demand and cost. *)
Definition pens (fC fL : Z -> Z) (D : matrix) (d : demands) (rs : list (list nat)) : Z :=
  sumZ (map (fun r => fC (demand d r) + fL (route_cost D r)) rs).
Lemma pens_app fC fL D d a b : pens fC fL D d (a ++ b) = pens fC fL D d a + pens fC fL D d b.
Proof. unfold pens. rewrite map_app, sumZ_app. reflexivity. Qed.
Lemma pens_cons fC fL D d r rs : pens fC fL D d (r :: rs) = fC (demand d r) + fL (route_cost D r) + pens fC fL D d rs.
Proof. reflexivity. Qed.
Lemma pens_nil fC fL D d : pens fC fL D d [] = 0.
Proof. reflexivity. Qed.
Lemma pens_rvr fC fL D d rs : symmetric D -> pens fC fL D d (rvr rs) = pens fC fL D d rs.
Proof.
  intros HD. induction rs as [|r rs IH]; [reflexivity|]. rewrite rvr_cons, pens_app, IH, !pens_cons, pens_nil, demand_rev, route_cost_rev by exact HD. lia.
Qed.

Fixpoint addpen (fC fL : Z -> Z) (D : matrix) (n : nat -> nat) (cum_d cum_l : nat -> Z) (dep : edge -> edge -> bool)
         (prev : edge) (edges : list edge) (rd rl : Z) : Z :=
  match edges with
  | [] => fC rd + fL rl
  | cur :: t =>
      (if dep prev cur then fC rd + fL rl else 0) +
      addpen fC fL D n cum_d cum_l dep cur t
        ((if dep prev cur then cum_d (fst cur) else rd) + cum_d (snd cur))
        ((if dep prev cur then cum_l (fst cur) else rl) + (D (n (fst cur)) (n (snd cur)) + cum_l (snd cur)))
  end.
Definition rempen (f : Z -> Z) (cum w : nat -> Z) (b12 b34 : bool) : Z :=
  let x := cum 0%nat + cum 1%nat + w 0%nat in
  let pen := if b12 then f x else 0 in
  let x := if b12 then cum 2%nat + cum 3%nat + w 1%nat else x + cum 3%nat + w 1%nat in
  let pen := if b34 then pen + f x else pen in
  let x := if b34 then cum 4%nat + cum 5%nat + w 2%nat else x + cum 5%nat + w 2%nat in
  pen + f x.

Section Pens.
  Variables (ra re : list (list nat)) (pa pe : list nat) (B C : chunk) (i j k : nat).
  Hypothesis SB : solid B.
  Hypothesis SC : solid C.
  Let A := Op [] ra pa.
  Let E := Op pe re [].
  Hypothesis Hijk : (i < j < k)%nat.
  Variables (ld12 ld34 : option nat).
  Hypothesis H12 : match ld12 with Some x => is_op B = true /\ (i < x <= j)%nat | None => is_op B = false end.
  Hypothesis H34 : match ld34 with Some x => is_op C = true /\ (j < x <= k)%nat | None => is_op C = false end.
  Variables (D : matrix) (d : demands).
  Hypothesis HD : symmetric D.
  Let n := tab [last pa 0%nat; fst_ B; lst_ B; fst_ C; lst_ C; hd 0%nat pe] (last pa 0%nat).
  Let cum_d := tab [demand d pa; demand d (lpart B); demand d (rpart B); demand d (lpart C); demand d (rpart C); demand d pe] 0.
  Let cum_l := tab [path_cost D (0%nat :: pa); lcost D B; rcost D B; lcost D C; rcost D C; path_cost D (pe ++ [0%nat])] 0.
  Let w := tab [D (n 0%nat) (n 1%nat); D (n 2%nat) (n 3%nat); D (n 4%nat) (n 5%nat)] 0.
  Let dep := depot_before (end_p i j k) ld12 ld34.
  Variables fC fL : Z -> Z.
  Hypothesis C0 : fC 0 = 0.
  Hypothesis L0 : fL 0 = 0.
  Let pn := pens fC fL D d.

  Ltac norm := repeat (rewrite ?pens_app, ?rvr_app, ?rvr_cons, ?rev_app_distr, ?app_nil_r, ?pens_cons, ?pens_nil, <- ?app_assoc; cbn [app rev]).
  Ltac ne1 := first [assumption | apply rev_ne; assumption].
  Ltac costs1 := rewrite ?RC; repeat (rewrite RA by ne1); repeat (rewrite hd_app_ne by ne1); repeat (rewrite last_app_ne by ne1);
    rewrite ?Lc_rev, ?Rc_rev, ?path_cost_rev, ?hd_rev00, ?last_rev00 by exact HD; rewrite ?pens_rvr by exact HD.
  Ltac syms := repeat match goal with |- context [D ?x ?y] => lazymatch goal with _ : D x y = D y x |- _ => fail | _ => pose proof (HD x y) end end.
  Ltac depsolve := unfold depot_before, end_p, tab; cbn [fst snd nth Nat.eqb orb]; lia.
  Ltac depg := repeat match goal with |- context [depot_before ?p ?l1 ?l2 ?e ?f] =>
                   first [ replace (depot_before p l1 l2 e f) with true by (symmetry; depsolve)
                         | replace (depot_before p l1 l2 e f) with false by (symmetry; depsolve) ] end.
  Ltac same f := repeat match goal with |- context [f ?x] => match goal with |- context [f ?y] =>
                   tryif constr_eq x y then fail else (replace (f x) with (f y) by (f_equal; lia)) end end.
  Lemma pens_ok : Forall2 (fun m ch => pn (rts (result ch)) = pn (rts (whole A B C E))
                                         - (rempen fC cum_d (fun _ => 0) (is_op B) (is_op C) + rempen fL cum_l w (is_op B) (is_op C))
                                         + addpen fC fL D n cum_d cum_l dep (0, 0)%nat (fst m) 0 0)
                  (moves_for (is_op B) (is_op C)) (chains_for A B C E).
  Proof.
    unfold moves_for, moves_3optstar, chains_for, chains, result, A, E, w, n, cum_d, cum_l, dep, pn. clear - HD SB SC H12 H34 Hijk C0 L0.
    destruct ld12 as [x12|], ld34 as [x34|]; destruct B as [pb|b1 rb b2], C as [pc|cc1 rc cc2]; cbn [is_op firstn skipn app solid] in *; try (exfalso; intuition congruence);
    repeat apply Forall2_cons; try apply Forall2_nil; cbn [fst snd addpen]; depg;
      unfold rempen; cbn [tab nth fst_ lst_ lpart rpart lcost rcost]; cbn [fold_left tl hd glue c1 c2 rv app whole rts]; rewrite ?C0, ?L0;
      norm; costs1; unfold Lc, Rc; rewrite ?demand_app, ?demand_rev; syms; same fC; same fL; lia.
  Qed.
End Pens.
