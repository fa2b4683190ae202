(** * A solver that tries everything, for the examples *)
From Verif Require Import Spec Spec_rfcs Spec_inter Spec_savings Spec_petal PyBase M_util M_sweep M_petal.
From Coq Require Import ZifyBool ZifyNat Lia Arith List Permutation.
Import ListNotations.
Local Open Scope Z_scope.

Fixpoint choices (n : nat) : list (list bool) := match n with O => [[]] | S n' => flat_map (fun x => [false :: x; true :: x]) (choices n') end.
Lemma in_choices : forall n x, length x = n -> In x (choices n).
Proof.
  induction n as [|n IH]; intros [|b x] H; try discriminate; [now left|]. injection H as H. cbn. apply in_flat_map. exists x. split; [apply IH, H|]. destruct b; cbn; auto.
Qed.
(** The first of the least *)
Fixpoint least {A} (key : A -> Z) (l : list A) : option A :=
  match l with
  | [] => None
  | x :: t => match least key t with Some y => if key y <? key x then Some y else Some x | None => Some x end
  end.
Lemma least_spec {A} (key : A -> Z) l : match least key l with Some x => In x l /\ forall y, In y l -> key x <= key y | None => l = [] end.
Proof.
  induction l as [|x l IH]; [reflexivity|]. cbn. destruct (least key l) as [y|].
  - destruct IH as [I1 I2]. destruct (Z.ltb_spec (key y) (key x)); (split; [auto|]); intros z [<-|Hz]; try lia; specialize (I2 z Hz); lia.
  - subst l. split; [now left|]. intros y [<-|[]]. lia.
Qed.

(** Number of chosen petals *)
Definition chosen (x : list bool) : Z := Z.of_nat (length (filter (fun b => b) x)).
Definition brute (N : nat) (p : scp) : status :=
  match least (objective p) (filter (satisfies chosen N p) (choices (length (scp_sets p)))) with Some x => Optimal x | None => Infeasible end.
Lemma brute_honest N : honest chosen N (brute N).
Proof.
  intros p. unfold brute. pose proof (least_spec (objective p) (filter (satisfies chosen N p) (choices (length (scp_sets p))))) as H.
  assert (HS : forall y, satisfies chosen N p y = true -> In y (filter (satisfies chosen N p) (choices (length (scp_sets p))))).
  { intros y Hy. apply filter_In. split; [|exact Hy]. apply in_choices. unfold satisfies in Hy. rewrite !andb_true_iff in Hy. destruct Hy as [[[Hy _] _] _]. now apply Nat.eqb_eq. }
  destruct (least _ _) as [x|].
  - destruct H as [H1 H2]. apply filter_In in H1. split; [apply H1|]. intros y Hy. apply H2, HS, Hy.
  - intros y. destruct (satisfies chosen N p y) eqn:E; [|reflexivity]. apply HS in E. rewrite H in E. destruct E.
Qed.
Lemma brute_uninterrupted N : uninterrupted (brute N).
Proof. intros p. unfold brute. destruct (least _ _); discriminate. Qed.

(** feasRelax(2, True, ...): as few customers as possible whose constraint is broken, and then the least cost *)
Definition broken (N : nat) (p : scp) (x : list bool) : Z :=
  Z.of_nat (length (filter (fun i => negb (sumZ (map (fun j => if M_ssavings.mem i (nth j (scp_sets p) []) then bz (nth j x false) else 0) (scp_vars p)) =? 1)) (range 1 N))).
Definition brute_relax (N : nat) (p : scp) : status :=
  match least (fun x => 1000 * broken N p x + objective p x) (filter (fun x => c2 p x && c3 chosen p x) (choices (length (scp_sets p)))) with Some x => Optimal x | None => Infeasible end.
Lemma brute_relax_uninterrupted N : uninterrupted (brute_relax N).
Proof. intros p. unfold brute_relax. destruct (least _ _); discriminate. Qed.

Lemma unset_truthy K : ~ limit_set K -> truthy K = None.
Proof. destruct K as [k|]; [|reflexivity]. cbn. intros H. destruct (Z.eqb_spec k 0); [reflexivity|contradiction]. Qed.

(** ** The examples: places with the distance along the two axes *)
Definition place (i : nat) : Z * Z := match i with 1%nat => (4, 0) | 2%nat => (3, 3) | 3%nat => (0, 5) | 4%nat => (-4, 1) | _ => (0, 0) end.
Definition blocks (i j : nat) : Z := Z.abs (fst (place i) - fst (place j)) + Z.abs (snd (place i) - snd (place j)).
Definition loads (i : nat) : Z := match i with 1%nat => 3 | 2%nat => 1 | 3%nat => 1 | 4%nat => 2 | _ => 0 end.

Section Spin.
Notation base := [mkpt [0;1;0]%nat 8].
Notation it := (petal_iter 0 (brute 2) (brute_relax 2) 2 blocks loads (Some 4) None true None true None None Auto (100 * 100)%nat base [] []).
Definition spin (p : positive) (seen : list (list nat)) (i : nat) (mx : ptl_set) : ptst :=
  mkpst Restricted mx seen [] [[0]] (Some [0;1;0]%nat) (Some 8) 1 true false (Some (Z.pos p)) i 1.
Lemma spin_step p seen i mx : exists p' seen' mx', it (spin p seen i mx) = inl (spin p' seen' (S i) mx').
Proof. exists (p + 1)%positive, (((seen ++ [[0;1;0]%nat]) ++ []) ++ []), (set_max mx Extended). reflexivity. Qed.
Lemma spin_on : forall fuel p seen i mx, petal_loop 0 (brute 2) (brute_relax 2) 2 blocks loads (Some 4) None true None true None None Auto (100 * 100)%nat base [] [] fuel (spin p seen i mx) = None.
Proof.
  induction fuel as [|fuel IH]; intros p seen i mx; [reflexivity|]. cbn [petal_loop]. destruct (spin_step p seen i mx) as (p' & seen' & mx' & E). rewrite E. apply IH.
Qed.
Lemma never_ends fuel : petal_init 0 (brute 2) (brute_relax 2) 2 blocks loads (Some 4) None (in_sweep_order blocks) [1]%nat None true true None None (Some (3, 4)) true Auto 1 fuel = None.
Proof.
  unfold petal_init. destruct (generate_petals _ _ _ _ _ _ _ _ _ _ _) as [g|] eqn:E; [|reflexivity].
  assert (g = mkgen [[0;1;0]%nat] base [] []) as ->.
  { do 4 (destruct fuel as [|fuel]; [vm_compute in E; congruence|]). vm_compute in E. congruence. }
  destruct fuel as [|fuel]; [reflexivity|]. cbn [petal_loop gn_restricted gn_reduced gn_extended].
  match goal with |- match ?x with inl _ => _ | inr _ => _ end = _ => assert (Es : x = inl (spin 1 [[0;1;0]%nat] 1 Restricted)) by (vm_compute; reflexivity) end.
  rewrite Es. apply spin_on.
Qed.
End Spin.

(** The solver is interrupted at its second problem, or when all petals may be chosen. *)
Definition cut_later (N : nat) (p : scp) : status := match scp_forbid p with [] => brute N p | _ => Interrupted end.
Definition cut_all (N n : nat) (p : scp) : status := if Nat.eqb (length (scp_sets p)) n then Interrupted else brute N p.
Lemma cut_later_honest N : honest chosen N (cut_later N).
Proof. intros p. unfold cut_later. destruct (scp_forbid p); [apply brute_honest|exact I]. Qed.
Lemma cut_all_honest N n : honest chosen N (cut_all N n).
Proof. intros p. unfold cut_all. destruct (Nat.eqb _ n); [exact I|apply brute_honest]. Qed.
