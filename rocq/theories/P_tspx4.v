(** * LKH and ACOTSP: programs that keep the rules, and cases *)
From Verif Require Import PyBase M_text M_io P_text M_intra M_rfcs M_tspg M_tspx P_tspg P_tspg2 P_tspg3 P_tspg4 P_tspx P_tspx2 P_tspx3 P_mbsa6 P_rfcs3 P_intra Spec_io Spec_ls Spec_tspx Spec_tspg Spec_rfcs Spec.
From Coq Require Import ZifyBool ZifyNat Lia List Permutation.
Import ListNotations.

(** ** Programs that try all tours *)
Definition read_matrix (file : text) : option (nat * (nat -> nat -> Z)) :=
  match read_TSPLIB_CVRP parse_int 0%Z (fun z => z) (fun _ _ => None) file with Ok P => pb_D P | Raise _ => None end.
Definition try_order (m : nat) (W : matrix) : list nat := 0%nat :: cheapest W (seq 1 (m - 1)) (orders (seq 1 (m - 1))).
Definition try_lkh (file : text) : text :=
  match read_matrix file with
  | Some (m, W) =>
      let tour := try_order m W in
      file_of ([str "NAME : t"] ++ [str "COMMENT : Length = " ++ print_int (tour_length W tour)] ++ [str "TYPE : TOUR"] ++ [str "TOUR_SECTION"] ++ tour_lines tour ++ [str "-1"; str "EOF"])
  | None => []
  end.
Definition try_aco (file : text) : text :=
  match read_matrix file with
  | Some (m, W) => file_of [str "begin"; best_line (try_order m W); str "end"]
  | None => []
  end.
Lemma try_order_perm m W : (1 <= m)%nat -> Permutation (try_order m W) (seq 0 m).
Proof.
  intros Hm. destruct m as [|m]; [lia|]. unfold try_order. cbn [seq]. replace (S m - 1)%nat with m by lia. constructor. destruct (cheapest_ok W (orders (seq 1 m)) (seq 1 m)) as ([->|H] & _); [reflexivity|now apply orders_sound].
Qed.
Lemma try_order_best m W other : (1 <= m)%nat -> Permutation other (seq 0 m) -> (tour_length W (try_order m W) <= tour_length W other)%Z.
Proof.
  intros Hm P. assert (I0 : In 0%nat other) by (apply (Permutation_in _ (Permutation_sym P)), in_seq; lia). destruct (in_split _ _ I0) as (l1 & l2 & ->). rewrite (tour_length_rotate W l1). cbn [app].
  destruct m as [|m]; [lia|]. assert (P' : Permutation (l2 ++ l1) (seq 1 m)) by (apply (Permutation_cons_inv (a := 0%nat)); change (0%nat :: seq 1 m) with (seq 0 (S m)); rewrite <- P; apply (Permutation_app_comm (0%nat :: l2) l1)).
  unfold try_order, tour_length. replace (S m - 1)%nat with m by lia. cbn [firstn app]. apply (cheapest_ok W (orders (seq 1 m)) (seq 1 m)). now apply orders_complete.
Qed.
Lemma tour_length_ext (D E : matrix) m tour : Permutation tour (seq 0 m) -> (forall a b, (a < m)%nat -> (b < m)%nat -> D a b = E a b) -> tour_length D tour = tour_length E tour.
Proof.
  intros P H. apply path_cost_ext. assert (Hb : forall i, In i (tour ++ firstn 1 tour) -> (i < m)%nat).
  { intros i Hi. assert (In i tour) by (apply in_app_or in Hi; destruct Hi as [Hi|Hi]; [exact Hi|]; destruct tour; [destruct Hi|destruct Hi as [<-|[]]; now left]). apply (Permutation_in _ P), in_seq in H0. lia. }
  intros i j Hi Hj. apply H; now apply Hb.
Qed.
Lemma try_lkh_optimal : lkh_optimal try_lkh.
Proof.
  intros file m W (P & D' & E & ED & HD) Hm. unfold try_lkh, read_matrix. rewrite E, ED. exists (try_order m D'). pose proof (try_order_perm m D' ltac:(lia)) as PT. split; [exact PT|]. split.
  - exists [str "NAME : t"], [str "TYPE : TOUR"]. split; [|split].
    + constructor; [|constructor]. split; [repeat constructor; discriminate|]. split; [reflexivity|discriminate].
    + constructor; [|constructor]. split; [repeat constructor; discriminate|]. split; [reflexivity|discriminate].
    + rewrite (tour_length_ext W D' m _ PT) by (intros; symmetry; now apply HD). reflexivity.
  - intros other PO. rewrite (tour_length_ext W D' m _ PT), (tour_length_ext W D' m _ PO) by (intros; symmetry; now apply HD). apply try_order_best; [lia|exact PO].
Qed.
Lemma try_aco_tours : aco_prints_tours try_aco.
Proof.
  intros file m W (P & D' & E & ED & HD) Hm. unfold try_aco, read_matrix. rewrite E, ED. eexists. split; [reflexivity|]. split; [exists (try_order m D'); right; now left|].
  constructor; [split; [repeat constructor; discriminate|left; reflexivity]|]. constructor; [|constructor; [split; [repeat constructor; discriminate|left; reflexivity]|constructor]].
  split; [|right; exists (try_order m D'); split; [apply try_order_perm; lia|reflexivity]]. unfold best_line, one_line. apply Forall_app. split; [repeat constructor; discriminate|].
  apply Forall_forall. intros c Hc. apply in_flat_map in Hc. destruct Hc as (k & _ & [<-|Hc]); [discriminate|]. pose proof (print_int_one_line (Z.of_nat k)) as F. unfold one_line in F. rewrite Forall_forall in F. now apply F.
Qed.

(** ** Cases *)
(** Four points on the corners of a square; the diagonals are shorter than two sides. *)
Definition Dsq : matrix := fun i j => nth j (nth i [[0; 20; 30; 20]; [20; 0; 20; 30]; [30; 20; 0; 20]; [20; 30; 20; 0]] []) 0%Z.
Lemma Dsq_dist l : (forall i, In i l -> (i < 4)%nat) -> distances Dsq l.
Proof.
  intros Hl. split.
  - assert (H4 : forall i j, (i < 4)%nat -> (j < 4)%nat -> Dsq i j = Dsq j i) by (intros i j Hi Hj; do 4 (destruct i as [|i]; [do 4 (destruct j as [|j]; [reflexivity|]); lia|]); lia).
    intros i j. destruct (le_lt_dec 4 i) as [Gi|Gi]; [|destruct (le_lt_dec 4 j) as [Gj|Gj]; [|now apply H4]].
    + unfold Dsq. rewrite (nth_overflow _ [] (n := i)) by (cbn; lia). rewrite (nth_overflow [] 0%Z) by (cbn; lia). symmetry. apply nth_overflow. do 4 (destruct j as [|j]; [cbn; lia|]). destruct j; cbn; lia.
    + unfold Dsq. rewrite (nth_overflow _ [] (n := j)) by (cbn; lia). rewrite (nth_overflow [] 0%Z (n := i)) by (cbn; lia). apply nth_overflow. do 4 (destruct i as [|i]; [cbn; lia|]). destruct i; cbn; lia.
  - intros i Hi. specialize (Hl i Hi). do 4 (destruct i as [|i]; [reflexivity|]). lia.
Qed.
Lemma Dsq_all : symmetric Dsq /\ forall i, Dsq i i = 0%Z.
Proof.
  split; [apply (Dsq_dist []); intros i []|]. intros i. do 4 (destruct i as [|i]; [reflexivity|]). destruct i; reflexivity.
Qed.
Lemma lkh_case : solve_tsp_lkh try_lkh None 1000 4 Dsq [2; 0; 3; 1]%nat = Ok ([0; 1; 2; 3; 0]%nat, (80%Z, 1%Z)).
Proof. vm_compute. reflexivity. Qed.
Lemma lkh_closed_case : solve_tsp_lkh try_lkh None 1000 4 Dsq [0; 3; 0]%nat = Ok ([0; 0; 3; 0]%nat, (40%Z, 1%Z)).
Proof. vm_compute. reflexivity. Qed.
(** Distances of 0.9: all three are taken for 0. *)
Definition D9 : matrix := fun i j => if Nat.eqb i j then 0%Z else 9%Z.
Lemma D9_dist l : distances D9 l.
Proof. split; [intros i j; unfold D9; now rewrite Nat.eqb_sym|intros i _; unfold D9; now rewrite Nat.eqb_refl]. Qed.
Lemma lkh_float_case : solve_tsp_lkh try_lkh (Some 10%Z) 1000 3 D9 [0; 1; 2]%nat = Ok ([0; 1; 2; 0]%nat, (0%Z, 1%Z)) /\ path_cost D9 [0; 1; 2; 0]%nat = 27%Z.
Proof. vm_compute. auto. Qed.
(** A third, four times: 1.332 instead of 1.333 *)
Lemma lkh_float_case4 : solve_tsp_lkh try_lkh (Some 3%Z) 1000 4 (fun i j => if Nat.eqb i j then 0 else 1)%Z [0; 1; 2; 3]%nat = Ok ([0; 1; 2; 3; 0]%nat, (1332%Z, 1000%Z)).
Proof. vm_compute. reflexivity. Qed.
(** The first 60 characters of the file: two nodes *)
Lemma lkh_cut_case : solve_tsp_lkh (fun file => firstn 60 (try_lkh file)) None 1000 4 Dsq [0; 1; 2; 3]%nat = Ok ([0; 1; 0]%nat, (80%Z, 1%Z)).
Proof. vm_compute. reflexivity. Qed.
Lemma lkh_empty lkh unit acc N D sel : (4 <= length sel)%nat -> (forall f, lkh f = []) -> solve_tsp_lkh lkh unit acc N D sel = Raise IndexError.
Proof. intros H4 H. unfold solve_tsp_lkh. destruct (Nat.leb_spec (length sel) 3); [lia|]. cbv zeta. rewrite H. reflexivity. Qed.
Lemma aco_case : solve_tsp_acotsp try_aco None 1000 false 4 Dsq [2; 0; 3; 1]%nat = Some (Ok (Some ([2; 3; 0; 1; 2]%nat, 80%Z))).
Proof. vm_compute. reflexivity. Qed.
