(** * Proofs: more fuel does not change a result *)
From Verif Require Import Spec PyBase M_util M_routedata M_intra M_inter M_driver M_psavings M_cins M_mj.
From Coq Require Import ZifyBool ZifyNat Lia Arith List.
Import ListNotations.
Local Open Scope Z_scope.

Definition keeps {A B} (f g : A -> option B) : Prop := forall x y, f x = Some y -> g x = Some y.

Lemma repeat_more op : forall fuel fuel' r c x, (fuel <= fuel')%nat -> repeat_op op fuel r c = Some x -> repeat_op op fuel' r c = Some x.
Proof.
  induction fuel as [|fuel IH]; intros fuel' r c x Hf; [discriminate|]. destruct fuel' as [|fuel']; [lia|]. cbn [repeat_op].
  destruct (op r) as [[r' dl]|]; [|easy]. apply IH. lia.
Qed.

Lemma ops_more eps it sem first : forall fuel fuel' todo st imp best x, (fuel <= fuel')%nat ->
  ops_loop eps it sem first fuel todo st imp best = Some x -> ops_loop eps it sem first fuel' todo st imp best = Some x.
Proof.
  induction fuel as [|fuel IH]; intros fuel' todo st imp best x Hf.
  - destruct todo; [destruct fuel'; easy|discriminate].
  - destruct fuel' as [|fuel']; [lia|]. destruct todo as [|op rest]; [easy|]. cbn [ops_loop].
    destruct (search_op eps it sem first st op) as [[[prs dl]|] noimp]; [|apply IH; lia].
    destruct it; try (apply IH; lia). easy.
Qed.

Lemma iter_more eps it sem first ops mi : forall fuel fuel' i st x, (fuel <= fuel')%nat ->
  iter_loop eps it sem first ops mi fuel i st = Some x -> iter_loop eps it sem first ops mi fuel' i st = Some x.
Proof.
  induction fuel as [|fuel IH]; intros fuel' i st x Hf; [discriminate|]. destruct fuel' as [|fuel']; [lia|]. cbn [iter_loop].
  destruct (ops_loop eps it sem first fuel ops st false None) as [[[st1 imp] best]|] eqn:E; [|discriminate].
  rewrite (ops_more _ _ _ _ fuel fuel' _ _ _ _ _ ltac:(lia) E).
  destruct (match it, best with IterBest, Some (prs, _) => (apply_result st1 prs, true) | _, _ => (st1, imp) end) as [st2 imp2].
  destruct (match mi with Some (S m) => (S m <=? S i)%nat | _ => false end); [easy|]. destruct imp2; [|easy]. apply IH. lia.
Qed.

Lemma search_more eps sem ops sol D d first it mi fuel fuel' x : (fuel <= fuel')%nat ->
  do_local_search eps sem ops sol D d first it mi fuel = Some x -> do_local_search eps sem ops sol D d first it mi fuel' = Some x.
Proof.
  intros Hf. unfold do_local_search. destruct (iter_loop _ _ _ _ _ _ fuel _ _) as [st|] eqn:E; [|discriminate].
  now rewrite (iter_more _ _ _ _ _ _ fuel fuel' _ _ _ Hf E).
Qed.

(** ** Insertion *)
Section Insertion.
Variables (ceps seps : Z) (D : matrix) (d : demands) (C L : limit) (strain : nat -> nat -> nat -> Z * Z) (ident : nat -> Z).
Variables f g : insertion -> rdata -> option (option (rdata * list (nat * nat))).
Hypothesis Hfg : forall i, keeps (f i) (g i).

Lemma pops_more : forall n rd u x, pops ceps d C f n rd u = Some x -> pops ceps d C g n rd u = Some x.
Proof using Hfg.
  induction n as [|n IH]; intros rd u x; [easy|]. cbn [pops]. destruct (r_heap rd) as [|e t]; [easy|]. destruct (pop_min e t) as [m rest].
  destruct (seems_valid _ _ _ _ _ _); [|apply IH]. destruct (f (en_ins m) _) as [[[rd' es]|]|] eqn:E; [| |discriminate]; rewrite (Hfg _ _ _ E); [easy|apply IH].
Qed.

Lemma turn_more st x : turn ceps seps D d C L strain f ident st = Some x -> turn ceps seps D d C L strain g ident st = Some x.
Proof using Hfg.
  unfold turn. destruct (match r_heap _ with [] => _ | _ => _ end) as [rd1 t1].
  destruct (pops ceps d C f _ _ _) as [res|] eqn:E; [|discriminate]. now rewrite (pops_more _ _ _ _ E).
Qed.

Lemma loop_more : forall fuel fuel' st x, (fuel <= fuel')%nat ->
  main_loop ceps seps D d C L strain f ident fuel st = Some x -> main_loop ceps seps D d C L strain g ident fuel' st = Some x.
Proof using Hfg.
  induction fuel as [|fuel IH]; intros fuel' st x Hf; cbn [main_loop].
  - destruct (c_unrouted st) eqn:E; [|discriminate]. intros H. destruct fuel'; cbn [main_loop]; now rewrite E.
  - destruct fuel' as [|fuel']; [lia|]. cbn [main_loop]. destruct (c_unrouted st); [easy|].
    destruct (turn ceps seps D d C L strain f ident st) as [[[st'|] pts]|] eqn:E; [| |discriminate]; rewrite (turn_more _ _ E); [|easy].
    destruct (main_loop _ _ _ _ _ _ _ f _ fuel st') as [[o pts']|] eqn:E'; [|discriminate]. now rewrite (IH fuel' _ _ ltac:(lia) E').
Qed.

Lemma init_more N K seeds fuel fuel' x : (fuel <= fuel')%nat ->
  insertion_init ceps seps D d C L strain f ident N K seeds fuel = Some x -> insertion_init ceps seps D d C L strain g ident N K seeds fuel' = Some x.
Proof using Hfg.
  intros Hf. unfold insertion_init. destruct (initial_routes _ _ _ _ _) as [[[rds s] u]|]; [|easy]. now apply loop_more.
Qed.
End Insertion.

Lemma insertion_more ceps seps N D d C L minimize_K K m strain ident fuel fuel' x : (fuel <= fuel')%nat ->
  cheapest_insertion_init ceps seps N D d C L minimize_K K m strain ident fuel = Some x ->
  cheapest_insertion_init ceps seps N D d C L minimize_K K m strain ident fuel' = Some x.
Proof. apply init_more. intros i y z. easy. Qed.

Lemma parallel_more ceps seps N D d C L minimize_K ident ident' fuel fuel' x : (fuel <= fuel')%nat ->
  parallel_insertion_auto ceps seps N D d C L minimize_K ident ident' fuel = Some x ->
  parallel_insertion_auto ceps seps N D d C L minimize_K ident ident' fuel' = Some x.
Proof.
  intros Hf. unfold parallel_insertion_auto. destruct (cheapest_insertion_init _ _ _ _ _ _ _ _ 1 _ _ _ fuel) as [[[sol|] pts]|] eqn:E; [| |discriminate];
    rewrite (insertion_more _ _ _ _ _ _ _ _ _ _ _ _ fuel fuel' _ Hf E); [|easy].
  destruct (cheapest_insertion_init _ _ _ _ _ _ _ _ _ _ _ ident' fuel) as [[o pts']|] eqn:E'; [|discriminate].
  now rewrite (insertion_more _ _ _ _ _ _ _ _ _ _ _ _ fuel fuel' _ Hf E').
Qed.

(** ** Mole and Jameson *)
Lemma try_2opt_more eps seps fuel fuel' D L mk : (fuel <= fuel')%nat -> forall i, keeps (try_insert_2opt eps seps fuel D L mk i) (try_insert_2opt eps seps fuel' D L mk i).
Proof.
  intros Hf i rd x. unfold try_insert_2opt. destruct (repeat_op _ fuel _ _) as [[r2 t]|] eqn:E; [|discriminate]. now rewrite (repeat_more _ fuel fuel' _ _ _ Hf E).
Qed.

Lemma refine_more eps D d C L mk : forall fuel fuel_ls fuel_ls' fuel' sol x, (fuel_ls <= fuel_ls')%nat -> (fuel <= fuel')%nat ->
  refine_solution eps D d C L mk fuel_ls fuel sol = Some x -> refine_solution eps D d C L mk fuel_ls' fuel' sol = Some x.
Proof.
  induction fuel as [|fuel IH]; intros fl fl' fuel' sol x H1 H2; [discriminate|]. destruct fuel' as [|fuel']; [lia|]. cbn [refine_solution].
  destruct (do_local_search _ _ _ _ _ _ _ _ _ fl) as [sol3|] eqn:E; [|discriminate]. rewrite (search_more _ _ _ _ _ _ _ _ _ fl fl' _ H1 E).
  destruct (from_solution _ D d) as [|rd rds]; [easy|]. destruct (take_min rd rds) as [m rest].
  destruct (do_redistribute_move _ _ _ _ _ _ _ _ _ _) as [[rds' dl]|]; [|easy]. destruct (mk || (dl <? 0)); [|easy]. apply IH; lia.
Qed.

Section MJ.
Variables (eps : Z) (N : nat) (D : matrix) (d : demands) (C L : limit) (mk : bool) (ident : Z * Z * init_method -> nat -> Z).
Variables fuel fuel' : nat.
Hypothesis Hf : (fuel <= fuel')%nat.

Lemma mj_run_more cfg x : mj_run eps N D d C L mk ident fuel cfg = Some x -> mj_run eps N D d C L mk ident fuel' cfg = Some x.
Proof using Hf.
  unfold mj_run, mj_insertion. destruct cfg as [[ln mn] m].
  destruct (insertion_init _ _ _ _ _ _ _ (try_insert_2opt eps eps fuel D L false) _ _ _ _ fuel) as [[[sol|] pts]|] eqn:E; [| |discriminate];
    rewrite (init_more _ _ _ _ _ _ _ _ _ _ (try_2opt_more eps eps fuel fuel' D L false Hf) _ _ _ fuel fuel' _ Hf E); [|easy].
  destruct (refine_solution _ _ _ _ _ _ fuel fuel sol) as [r|] eqn:E'; [|discriminate]. now rewrite (refine_more _ _ _ _ _ _ fuel fuel fuel' fuel' _ _ Hf Hf E').
Qed.

Lemma mj_runs_more : forall cfgs x, mj_runs eps N D d C L mk ident fuel cfgs = Some x -> mj_runs eps N D d C L mk ident fuel' cfgs = Some x.
Proof using Hf.
  induction cfgs as [|cfg t IH]; intros x; [easy|]. cbn [mj_runs]. destruct (mj_run _ _ _ _ _ _ _ _ fuel cfg) as [[s|]|] eqn:E; [| |discriminate];
    rewrite (mj_run_more _ _ E); [|easy]. destruct (mj_runs _ _ _ _ _ _ _ _ fuel t) as [r|]; [|discriminate]. now rewrite (IH _ eq_refl).
Qed.

Lemma mj_more c x : mole_jameson_insertion_init eps N D d C L mk ident c fuel = Some x -> mole_jameson_insertion_init eps N D d C L mk ident c fuel' = Some x.
Proof using Hf.
  unfold mole_jameson_insertion_init. destruct (mj_runs _ _ _ _ _ _ _ _ fuel _) as [r|] eqn:E; [|discriminate]. now rewrite (mj_runs_more _ _ E).
Qed.
End MJ.
