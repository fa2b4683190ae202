(** * Model of verypy/classic_heuristics/lr3opt.py: the checker and the repair step *)
From Verif Require Import Spec PyBase M_util M_psavings.

(** _check_CL_constraints, lines 169-191.  [prev] is None before the first node. *)
Fixpoint check_CL (ceps seps : Z) (D : matrix) (d : demands) (C L : limit)
         (sol : list nat) (prev : option nat) (c l : Z) : bool :=
  match sol with
  | [] => true
  | node :: t =>
      let c1 := if is_set C && negb (Nat.eqb node 0) then c + d node else c in
      if is_set C && negb (Nat.eqb node 0) && exceeds C ceps c1 then false
      else
        let l1 := match prev with Some p => if is_set L then l + D p node else l | None => l end in
        if is_set L && match prev with Some _ => true | None => false end && exceeds L seps l1 then false
        else check_CL ceps seps D d C L t (Some node) (if Nat.eqb node 0 then 0 else c1) (if Nat.eqb node 0 then 0 else l1)
  end.
Definition check_CL_constraints ceps seps (sol : list nat) D d C L : bool :=
  check_CL ceps seps D d C L sol None 0 0.

(** The inner loop of _force_feasible, lines 198-214, over r[1:].  [fr] is feasibler, [acc] is
    feasible_routes; a route not closed at the end of the loop is dropped. *)
Fixpoint force_scan (ceps seps : Z) (D : matrix) (d : demands) (C L : limit)
         (ns fr : list nat) (totald totall : Z) (prevn : nat) (acc : list (list nat)) : list (list nat) :=
  match ns with
  | [] => acc
  | n :: t =>
      let c_violated := exceeds C ceps (totald + d n) in
      let l_violated := exceeds L seps (totall + D prevn n + D n 0%nat) in
      let close := (Nat.eqb n 0 || c_violated || l_violated) && (1 <? length fr)%nat in
      let acc := if close then acc ++ [fr ++ [0%nat]] else acc in
      let fr := if close then [0%nat] else fr in
      let totald := if close then 0 else totald in
      let totall := if close then 0 else totall in
      let prevn := if close then 0%nat else prevn in
      force_scan ceps seps D d C L t (if negb (Nat.eqb n 0) then fr ++ [n] else fr)
        (if is_set C then totald + d n else totald) (if is_set L then totall + D prevn n else totall) n acc
  end.
(** _force_feasible, lines 193-215; [None] is routes2sol's None for no routes. *)
Definition force_feasible ceps seps (sol : list nat) D d C L : option (list nat) :=
  routes2sol (map Some (fold_left (fun acc r => force_scan ceps seps D d C L (slice_from 1 r) [0%nat] 0 0 0%nat acc)
                                  (sol2routes sol) [])).
