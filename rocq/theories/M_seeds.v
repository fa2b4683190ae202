(** The choice of seed customers by demand that the generalized assignment
    heuristic uses when asked for "large_demands" (gapvrp.py).  A seed point
    is modelled by the number of the node whose coordinates it copies, so the
    coordinates themselves do not appear.  [root] stands for [np.sqrt]: any
    function from distances to numbers.  Numbers are [Z]; dividing by [C] is
    left out where it only scales all compared values by the same positive
    factor (gapvrp.py:577). *)
From Coq Require Import ZArith List Bool Lia.
From Verif Require Import Spec PyBase.
Import ListNotations.
Open Scope Z_scope.

Definition mask := nat -> bool.

(** [np.where(mask)[0].tolist()] for a mask of length [N]: gapvrp.py:523, 527,
    563; also the columns that [D[..., mask]] selects (gapvrp.py:572, 574) *)
Definition where_ (N : nat) (m : mask) : list nat := filter m (seq 0 N).

(** [mask[i] = b] *)
Definition set_mask (m : mask) (i : nat) (b : bool) : mask :=
  fun j => if Nat.eqb j i then b else m j.

(** [sorted_d.sort(reverse=True)] on pairs (demand, node): larger demands
    first, among equal demands larger node numbers first.  gapvrp.py:528-530;
    simplification: insertion, which gives the same list because the pairs
    differ *)
Fixpoint insert_desc (d : nat -> Z) (x : nat) (l : list nat) : list nat :=
  match l with
  | [] => [x]
  | y :: t =>
      if (d y <? d x) || ((d y =? d x) && Nat.ltb y x)
      then x :: l
      else y :: insert_desc d x t
  end.

Definition sort_desc (d : nat -> Z) (l : list nat) : list nat :=
  fold_right (insert_desc d) [] l.

(** What the function gives: the seeds, or an exception *)
Inductive seeding : Type :=
| Seeds (s : list nat)
| Seed_index_error      (* IndexError *)
| Seed_value_error.     (* ValueError: argmax of nothing *)

(** The candidates to start from: gapvrp.py:521-535.  [mask[idxs] = True] with
    a tuple of numbers is numpy's indexing by one number per dimension: with
    one number it sets that entry, with none all entries, and with several it
    raises IndexError because the mask has one dimension. *)
Definition seed_candidates (N : nat) (d : nat -> Z) (C : Z) (trial : nat)
  : option (list nat * mask) :=
  let only_1 : mask := fun i => C <? 2 * d i in
  let idxs := where_ N only_1 in
  match trial with
  | O => Some (idxs, only_1)
  | _ =>
      let sorted := sort_desc d (where_ N (fun i => negb (only_1 i))) in
      let a := Nat.max 0 (trial - N) in
      let b := Nat.min N trial in
      match firstn (b - a) (skipn a sorted), sorted with
      | _, [] => None   (* list(zip())[1]: IndexError *)
      | [], _ => Some (idxs, fun _ => true)
      | [i], _ => Some (idxs ++ [i], set_mask only_1 i true)
      | _, _ => None
      end
  end.

(** [np.argmax]: position of the first largest value; gapvrp.py:579 *)
Fixpoint argmax_from (i best : nat) (v : Z) (l : list Z) : nat :=
  match l with
  | [] => best
  | x :: t => if v <? x then argmax_from (S i) i x t else argmax_from (S i) best v t
  end.

Definition argmax (l : list Z) : option nat :=
  match l with
  | [] => None
  | x :: t => Some (argmax_from 1 0 x t)
  end.

(** The value by which a candidate is judged: gapvrp.py:571-577 *)
Definition seed_value (N : nat) (D : matrix) (d : nat -> Z) (root : Z -> Z)
  (selected : mask) (no_seeds non_large : bool) (j : nat) : Z :=
  let v :=
    if no_seeds then D 0%nat j
    else sumZ (map (fun i => root (D i j)) (where_ N selected)) in
  if non_large then v * d j else v.

(** One seed more until there are enough: the while loop of
    gapvrp.py:559-595.  [todo] is [K - len(seeds)]. *)
Fixpoint seed_loop (N : nat) (D : matrix) (d : nat -> Z) (root : Z -> Z)
  (large : mask) (todo : nat)
  (seeds : list nat) (selected cand : mask) (idxs : list nat) (non_large : bool)
  : seeding :=
  match todo with
  | O => Seeds seeds
  | S todo' =>
      let refill := match idxs with [] => true | _ => false end in
      let cand1 := if refill then set_mask (fun i => negb (large i)) 0 false else cand in
      let idxs1 := if refill then where_ N cand1 else idxs in
      let non_large1 := if refill then true else non_large in
      let no_seeds := match seeds with [] => true | _ => false end in
      let values := map (seed_value N D d root selected no_seeds non_large1)
                        (where_ N cand1) in
      match argmax values with
      | None => Seed_value_error
      | Some k =>
          match nth_error idxs1 k with
          | None => Seed_index_error
          | Some i =>
              seed_loop N D d root large todo'
                (seeds ++ [i]) (set_mask selected i true)
                (set_mask cand1 i false) (remove_first i idxs1) non_large1
          end
      end
  end.

(** [_large_demand_seed_points(points, D, d, C, K, trial)]: gapvrp.py:512-597 *)
Definition large_demand_seeds (N : nat) (D : matrix) (d : nat -> Z) (root : Z -> Z)
  (C : Z) (K : nat) (trial : nat) : seeding :=
  match seed_candidates N d C trial with
  | None => Seed_index_error
  | Some (idxs, large) =>
      let depot : mask := fun i => Nat.eqb i 0 in
      if Nat.leb (length idxs) K
      then seed_loop N D d root large (K - length idxs) idxs
             (fold_left (fun m i => set_mask m i true) idxs depot) large [] false
      else seed_loop N D d root large K [] depot large idxs false
  end.

(** ** Seeds at the ends of thoroughfares *)

(** What the clustering (DBSCAN of scikit-learn) says about a node: outlier
    (label -1), in a cluster but not a core point, or core point.  Any such
    labelling of the nodes, the depot included, is allowed; gapvrp.py:440-446 *)
Inductive clustering : Type := Outlier | Fringe | Core.

Definition is_kind (k k' : clustering) : bool :=
  match k, k' with
  | Outlier, Outlier | Fringe, Fringe | Core, Core => true
  | _, _ => false
  end.

(** [nn = 2+trial%2+int(trial/4)]: gapvrp.py:431; [nnS[nn]] raises IndexError
    unless every node has that many neighbours besides itself *)
Definition thoroughfare_nn (trial : nat) : nat := (2 + trial mod 2 + trial / 4)%nat.

(** The while loop of gapvrp.py:470-508.  [phase] is where the candidates come
    from; [candidate_mask] is an alias of the mask of the core points or of the
    outliers, so that clearing an entry changes that mask too: outliers that
    were chosen are not found again (gapvrp.py:483, 485, 506). *)
Fixpoint thoroughfare_loop (N : nat) (D : matrix) (root : Z -> Z)
  (kind : nat -> clustering) (todo : nat)
  (seeds : list nat) (selected cand : mask) (idxs : list nat) (phase : clustering)
  : seeding :=
  match todo with
  | O => Seeds seeds
  | S todo' =>
      let refill := match idxs with [] => true | _ => false end in
      let phase1 := if refill then (match phase with Fringe => Core | _ => Outlier end) else phase in
      let cand1 :=
        if refill then
          match phase with
          | Fringe => fun i => is_kind (kind i) Core
          | Core => fun i => is_kind (kind i) Outlier
          | Outlier => cand
          end
        else cand in
      let idxs1 := if refill then where_ N cand1 else idxs in
      let no_seeds := match seeds with [] => true | _ => false end in
      let values := map (seed_value N D (fun _ => 1) root selected no_seeds false)
                        (where_ N cand1) in
      match argmax values with
      | None => Seed_value_error
      | Some k =>
          match nth_error idxs1 k with
          | None => Seed_index_error
          | Some i =>
              thoroughfare_loop N D root kind todo'
                (seeds ++ [i]) (set_mask selected i true)
                (set_mask cand1 i false) (remove_first i idxs1) phase1
          end
      end
  end.

(** [_end_of_thoroughfares_seed_points(points, D, d, C, K, trial)]:
    gapvrp.py:388-510.  Simplification: the radius passed to DBSCAN is not
    computed, because any labelling is allowed. *)
Definition thoroughfare_seeds (N : nat) (D : matrix) (root : Z -> Z)
  (kind : nat -> clustering) (K : nat) (trial : nat) : seeding :=
  if Nat.leb N (thoroughfare_nn trial) then Seed_index_error
  else
    let fringe : mask := fun i => is_kind (kind i) Fringe in
    let idxs := where_ N fringe in
    let depot : mask := fun i => Nat.eqb i 0 in
    if Nat.leb (length idxs) K
    then thoroughfare_loop N D root kind (K - length idxs) idxs
           (fold_left (fun m i => set_mask m i true) idxs depot) fringe [] Fringe
    else thoroughfare_loop N D root kind K [] depot fringe idxs Fringe.
