(** * Proofs: Gaskell's savings see demands and limits only through which routes are feasible *)
From Verif Require Import Spec Spec_inter Spec_savings Spec_feas PyBase M_util M_driver M_psavings M_savfam P_psavings2 P_savfam P_feas.

Lemma gaskell_alike N D d d' C C' L L' ceps ceps' seps seps' mk : (2 <= N)%nat -> symmetric D ->
  (forall r, possible_route N r -> (feasible D d C L ceps seps r <-> feasible D d' C' L' ceps' seps' r)) ->
  forall m, gaskell_savings_init ceps seps N D d C L mk m = gaskell_savings_init ceps' seps' N D d' C' L' mk m.
Proof.
  intros HN Hs H m. unfold gaskell_savings_init. do 2 f_equal.
  assert (V : forall l, In l (gaskell_functions N D m) -> valid_pairs N l).
  { intros l Hl. destruct m; cbn in Hl; destruct Hl as [<-|Hl]; try now apply savings_list_valid.
    all: destruct Hl as [<-|[]] || destruct Hl; now apply savings_list_valid. }
  apply map_ext_in. intros l Hl. unfold ps_sol. now rewrite (parallel_alike N D d d' C C' L L' ceps ceps' seps seps' mk HN Hs H l (V l Hl)).
Qed.
