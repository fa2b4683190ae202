(** C113: seed customers at the ends of thoroughfares (generalized assignment
    heuristic with "ends_of_thoroughfares"). *)
From Coq Require Import ZArith List Bool Lia.
From Verif Require Import Spec PyBase M_seeds Spec_seeds P_seeds2 T_seeds.
Import ListNotations.
Open Scope Z_scope.

(** Whatever the clustering says, as long as it finds a core point: the
    function gives [K] different nodes.  Nodes at the fringe of clusters come
    first, core points after all of them, and outliers last; each is, when it
    is chosen, the candidate farthest from the depot and the seeds so far,
    except that the fringe is taken as a whole if there are enough seeds for
    it. *)
Theorem C113_distinct_nodes_partial :
  forall N D root kind K trial,
    (thoroughfare_nn trial < N)%nat -> (K <= N)%nat ->
    (exists i, (i < N)%nat /\ kind i = Core) ->
    let of_kind k i := (i < N)%nat /\ kind i = k in
    exists fringe core outliers,
      thoroughfare_seeds N D root kind K trial = Seeds (fringe ++ core ++ outliers)
      /\ length (fringe ++ core ++ outliers) = K
      /\ NoDup (fringe ++ core ++ outliers)
      /\ Forall (of_kind Fringe) fringe /\ Forall (of_kind Core) core /\ Forall (of_kind Outlier) outliers
      /\ all_first (of_kind Fringe) fringe (core ++ outliers)
      /\ all_first (of_kind Core) core outliers
      /\ ((forall i, of_kind Fringe i -> In i fringe) \/
          most_remote_first D root (fun _ => 1) (of_kind Fringe) [] fringe)
      /\ most_remote_first D root (fun _ => 1) (of_kind Core) fringe core
      /\ most_remote_first D root (fun _ => 1) (of_kind Outlier) (fringe ++ core) outliers.
Proof. exact thoroughfare_groups. Qed.
Print Assumptions C113_distinct_nodes_partial.

(** When all nodes are outliers the function fails with a ValueError, although
    it is meant to fall back to the outliers. *)
Theorem C113_only_outliers_refuted :
  forall N D root kind K trial,
    (thoroughfare_nn trial < N)%nat -> (1 <= K)%nat ->
    (forall i, (i < N)%nat -> kind i = Outlier) ->
    thoroughfare_seeds N D root kind K trial = Seed_value_error.
Proof. exact no_core_fails. Qed.
Print Assumptions C113_only_outliers_refuted.

(** A cluster of the depot and three customers whose core is customers 1 and 2;
    customers 4 and 5 are outliers *)
Definition ex_kind (i : nat) : clustering := nth i [Fringe; Core; Core; Fringe; Outlier; Outlier] Outlier.

(** The depot may become a seed. *)
Theorem C113_depot_as_seed_refuted :
  exists N D kind K s,
    (thoroughfare_nn 0 < N)%nat /\ (K < N)%nat /\ (exists i, (1 <= i < N)%nat /\ kind i = Core)
    /\ thoroughfare_seeds N D Z.sqrt kind K 0 = Seeds s /\ In 0%nat s.
Proof.
  exists 6%nat, on_line, ex_kind, 3%nat, [0; 3; 1]%nat.
  split; [vm_compute; lia|]. split; [lia|]. split; [exists 1%nat; split; [lia|reflexivity]|].
  split; [reflexivity|]. cbn. auto.
Qed.
Print Assumptions C113_depot_as_seed_refuted.

(** For small problems the second attempt fails with an IndexError. *)
Theorem C113_small_problem_refuted :
  forall D root kind K, thoroughfare_seeds 3 D root kind K 1 = Seed_index_error.
Proof. reflexivity. Qed.
Print Assumptions C113_small_problem_refuted.

Example C113_meets :
  (thoroughfare_nn 1 < 6)%nat
  /\ thoroughfare_seeds 6 on_line Z.sqrt ex_kind 5 1 = Seeds [0; 3; 1; 2; 5]%nat
  /\ thoroughfare_seeds 6 on_line Z.sqrt ex_kind 1 1 = Seeds [3]%nat
  /\ thoroughfare_seeds 6 on_line Z.sqrt (fun _ => Outlier) 2 0 = Seed_value_error.
Proof. vm_compute. repeat split; lia. Qed.
