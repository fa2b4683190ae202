(** * Wren and Holliday: cases in which it falls short *)
From Verif Require Import Spec_rfcs Spec_inter Spec_savings PyBase M_util M_routedata M_savfam M_sweep
     P_base P_util M_wh Spec_wh Spec.
From Coq Require Import ZifyBool ZifyNat Lia List Permutation.
Import ListNotations.
Local Open Scope Z_scope.

(** Distances from a table; nodes beyond the last are where the last one is *)
Definition table (rows : list (list Z)) : matrix :=
  fun i j => nth (Nat.min j (length rows - 1)) (nth (Nat.min i (length rows - 1)) rows []) 0.
Definition table_sym (rows : list (list Z)) : bool :=
  forallb (fun i => forallb (fun j => table rows i j =? table rows j i) (seq 0 (length rows))) (seq 0 (length rows)).
Definition table_tri (rows : list (list Z)) : bool :=
  forallb (fun i => forallb (fun j => forallb (fun k => table rows i k <=? table rows i j + table rows j k) (seq 0 (length rows))) (seq 0 (length rows))) (seq 0 (length rows)).
Lemma table_min rows i j : table rows i j = table rows (Nat.min i (length rows - 1)) (Nat.min j (length rows - 1)).
Proof. unfold table. now rewrite <- !Nat.min_assoc, !Nat.min_id. Qed.
Lemma min_in rows i : rows <> @nil (list Z) -> In (Nat.min i (length rows - 1)) (seq 0 (length rows)).
Proof. intros H. apply in_seq. destruct rows; [easy|]. cbn [length]. lia. Qed.
Lemma table_symmetric rows : rows <> [] -> table_sym rows = true -> symmetric (table rows).
Proof.
  intros Hn H i j. rewrite (table_min rows i j), (table_min rows j i). unfold table_sym in H. rewrite forallb_forall in H.
  specialize (H _ (min_in rows i Hn)). rewrite forallb_forall in H. specialize (H _ (min_in rows j Hn)). now apply Z.eqb_eq in H.
Qed.
Lemma table_triangle rows : rows <> [] -> table_tri rows = true -> triangle (table rows).
Proof.
  intros Hn H i j k. rewrite (table_min rows i k), (table_min rows i j), (table_min rows j k). unfold table_tri in H. rewrite forallb_forall in H.
  specialize (H _ (min_in rows i Hn)). rewrite forallb_forall in H. specialize (H _ (min_in rows j Hn)). rewrite forallb_forall in H. specialize (H _ (min_in rows k Hn)). now apply Z.leb_le in H.
Qed.
Definition loads (l : list Z) : demands := fun i => nth i l 0.
Lemma loads_pos l : Forall (fun x => 0 <= x) l -> forall n, 0 <= loads l n.
Proof. intros H n. unfold loads. destruct (Nat.lt_ge_cases n (length l)) as [Hn|Hn]; [rewrite Forall_forall in H; now apply H, nth_In|rewrite nth_overflow by exact Hn; lia]. Qed.

(** What has to be checked of an instance given by tables *)
Definition plain_instance (rows : list (list Z)) (l : list Z) (c : Z) : bool :=
  (2 <=? length rows)%nat && table_sym rows && table_tri rows && (table rows 0%nat 0%nat =? 0) && forallb (Z.leb 0) l && (nth 0 l 0 =? 0) && forallb (fun x => x <=? c) l.
(** The sweep starts at its first position, sets are listed in the order of their lists, and routes never overlap. *)
Definition first_gap (l : list nat) : nat := 0.
Definition as_listed (l : list nat) : list nat := l.
Definition apart (a b : list nat) : bool := false.

Lemma plain_ok rows l c : plain_instance rows l c = true -> 0 < c ->
  wh_instance 0 (length rows) (table rows) (loads l) (Some c) None (seq 1 (length rows - 1)) first_gap as_listed.
Proof.
  unfold plain_instance. rewrite !andb_true_iff. intros ((((((H1 & H2) & H3) & H4) & H5) & H6) & H7) Hc. apply Nat.leb_le in H1. apply Z.eqb_eq in H4. apply Z.eqb_eq in H6.
  assert (Hn : rows <> []) by (intros ->; cbn in H1; lia). constructor; try reflexivity; try lia.
  - now apply table_symmetric.
  - now apply table_triangle.
  - apply loads_pos. rewrite forallb_forall in H5. apply Forall_forall. intros x Hx. apply H5 in Hx. lia.
  - exact H6.
  - intros i Hi. split; [|exact I]. intros _. cbn. unfold loads. destruct (Nat.lt_ge_cases i (length l)) as [Hl|Hl]; [|rewrite nth_overflow by exact Hl; lia].
    rewrite forallb_forall in H7. specialize (H7 _ (nth_In l 0 Hl)). lia.
  - intros l' H'. unfold first_gap. destruct l'; [easy|]. cbn. lia.
Qed.

Definition roundabout_rows : list (list Z) :=
  [[0;10;12;21;11;24;11];[10;0;8;15;7;19;11];[12;8;0;9;1;12;19];[21;15;9;0;10;4;22];[11;7;1;10;0;13;18];[24;19;12;4;13;0;26];[11;11;19;22;18;26;0]].
Definition roundabout : matrix := table roundabout_rows.
Definition parcels : demands := loads [0;3;4;1;4;3;1].
Lemma roundabout_ok : wh_instance 0 7 roundabout parcels (Some 6) None (seq 1 6) first_gap as_listed.
Proof. apply (plain_ok roundabout_rows); [vm_compute; reflexivity|lia]. Qed.

Definition star_rows : list (list Z) := [[0;10;10;10;10];[10;0;1;20;20];[10;1;0;20;20];[10;20;20;0;20];[10;20;20;20;0]].
Definition star : matrix := table star_rows.
Definition star_loads : demands := loads [0;1;1;2;2].
Lemma star_ok : wh_instance 0 5 star star_loads (Some 3) None (seq 1 4) first_gap as_listed.
Proof. apply (plain_ok star_rows); [vm_compute; reflexivity|lia]. Qed.
Lemma star_worse fc : exists rs0 rs fuel, swept 0 5 star star_loads (Some 3) None (seq 1 4) (true, 0%nat) rs0 /\
  wren_holliday_init 0 5 star star_loads (Some 3) None (seq 1 4) apart first_gap as_listed false fc [(true, 0%nat)] fuel = Some (WhReturns (Some (encode rs))) /\
  beats false (routes_cost star rs0) (length rs0) (routes_cost star rs) (length rs).
Proof.
  exists [[1; 2]; [3]; [4]]%nat, [[3; 1]; [4; 2]]%nat, 40%nat. split; [exists 40%nat; vm_compute; reflexivity|]. split; [destruct fc; vm_compute; reflexivity|vm_compute; reflexivity].
Qed.

(** ** A search that does not end *)
Notation round_turn := (iteration 0 7 roundabout parcels (Some 6) None (seq 1 6) apart first_gap as_listed false).
Notation round_loop := (improve_loop 0 7 roundabout parcels (Some 6) None (seq 1 6) apart first_gap as_listed false).
Definition at_one : list routedata := [empty_rd; mkrd [0;1;5;0]%nat 53 (Some 6); mkrd [0;2;3;6;0]%nat 54 (Some 6); mkrd [0;4;0]%nat 22 (Some 4)].
Definition at_two : list routedata := [empty_rd; mkrd [0;1;5;0]%nat 53 (Some 6); mkrd [0;4;3;6;0]%nat 54 (Some 6); mkrd [0;2;0]%nat 24 (Some 4)].
Lemma one_two fc m lg q : q = 127 \/ q = 131 -> exists lg', round_turn fc (20 + m) (mkwh (mkw at_one lg) true (Some q) (Some q)) = Next (mkwh (mkw at_two lg') true (Some 129) (Some 129)).
Proof. intros [-> | ->]; destruct fc; eexists; vm_compute; reflexivity. Qed.
Lemma two_one fc m lg : exists lg', round_turn fc (20 + m) (mkwh (mkw at_two lg) true (Some 129) (Some 129)) = Next (mkwh (mkw at_one lg') true (Some 131) (Some 131)).
Proof. destruct fc; eexists; vm_compute; reflexivity. Qed.
Lemma round_forever fc m : forall fuel lg q, q = 127 \/ q = 131 ->
  snd (round_loop fc (20 + m) fuel (mkwh (mkw at_one lg) true (Some q) (Some q))) = false /\
  snd (round_loop fc (20 + m) fuel (mkwh (mkw at_two lg) true (Some 129) (Some 129))) = false.
Proof.
  induction fuel as [|fuel IH]; intros lg q Hq; [now split|]. cbn [improve_loop].
  destruct (one_two fc m lg q Hq) as (l1 & E1). destruct (two_one fc m lg) as (l2 & E2). rewrite E1, E2. split.
  - apply (IH l1 127). now left.
  - apply (IH l2 131). now right.
Qed.
Definition round_start : list (list nat) := [[1]; [2; 3]; [4]; [5; 6]]%nat.
Lemma round_begin fc m : exists lg, match round_turn fc (20 + m) (mkwh (mkw (from_solution (encode round_start) roundabout parcels) []) true None None) with
  | Next s => round_turn fc (20 + m) s | t => t end = Next (mkwh (mkw at_one lg) true (Some 127) (Some 127)).
Proof. destruct fc; eexists; vm_compute; reflexivity. Qed.
Lemma round_improve fc fuel : snd (improve 0 7 roundabout parcels (Some 6) None (seq 1 6) apart first_gap as_listed false fc fuel (encode round_start)) = false.
Proof.
  destruct (Nat.lt_ge_cases fuel 20) as [H|H].
  - do 20 (destruct fuel as [|fuel]; [destruct fc; vm_compute; reflexivity|]). lia.
  - unfold improve. replace fuel with (20 + (fuel - 20))%nat at 1 by lia. set (m := (fuel - 20)%nat).
    destruct fuel as [|[|fuel]]; [lia|lia|]. destruct (round_begin fc m) as (lg & E). cbn [improve_loop].
    destruct (round_turn fc (20 + m) _) as [s|s|s]; [discriminate| |discriminate]. rewrite E. now apply (proj1 (round_forever fc m fuel lg 127 (or_introl eq_refl))).
Qed.
Lemma round_never fc fuel : wren_holliday_init 0 7 roundabout parcels (Some 6) None (seq 1 6) apart first_gap as_listed false fc [(true, 0%nat)] fuel = None.
Proof.
  assert (E : initial_sols 0 7 roundabout parcels (Some 6) None (seq 1 6) [(true, 0%nat)] fuel = None \/
              initial_sols 0 7 roundabout parcels (Some 6) None (seq 1 6) [(true, 0%nat)] fuel = Some (Some [encode round_start])).
  { destruct (Nat.lt_ge_cases fuel 20) as [H|H]; [do 20 (destruct fuel as [|fuel]; [vm_compute; auto|]); lia|].
    right. replace fuel with (20 + (fuel - 20))%nat by lia. generalize (fuel - 20)%nat. intros m. vm_compute. reflexivity. }
  unfold wren_holliday_init. destruct E as [-> | ->]; [reflexivity|]. cbn [improve_all]. pose proof (round_improve fc fuel) as H.
  destruct (improve _ _ _ _ _ _ _ _ _ _ _ _ _ _) as [st b]. cbn [snd] in H. now subst.
Qed.

(** ** Interrupts *)
Definition seen_at (D : matrix) (d : demands) (C : limit) (order : list nat) (ov : list nat -> list nat -> bool) (mk : bool) (fuel : nat) (sol : list nat) : list (list routedata) :=
  let st := fst (improve 0 7 D d C None order ov first_gap as_listed mk true fuel sol) in ws_routes st :: ws_log st.
Lemma round_lost : exists rs0 rs1 rds rs, swept 0 7 roundabout parcels (Some 6) None (seq 1 6) (true, 3%nat) rs0 /\
  swept 0 7 roundabout parcels (Some 6) None (seq 1 6) (true, 0%nat) round_start /\
  improved 0 7 roundabout parcels (Some 6) None (seq 1 6) apart first_gap as_listed true true round_start rs1 /\
  seen 0 7 roundabout parcels (Some 6) None (seq 1 6) apart first_gap as_listed true true (encode rs0) rds /\
  interrupted_at roundabout true (map encode [rs1]) rds = Some (encode rs) /\ ~ In 6%nat (concat rs).
Proof.
  exists [[4]; [5; 6]; [1]; [2; 3]]%nat, [[1; 5]; [2; 3; 6]; [4]]%nat,
    (hd [] (filter (fun rds => forallb (fun x => x) (map (fun p => Nat.eqb (fst p) (snd p)) (combine (to_sol rds) [0;4;0;5;1;0;2;3;0]%nat)))
       (seen_at roundabout parcels (Some 6) (seq 1 6) apart true 20 (encode [[4]; [5; 6]; [1]; [2; 3]]%nat)))), [[4]; [5; 1]; [2; 3]]%nat.
  split; [exists 40%nat; vm_compute; reflexivity|]. split; [exists 40%nat; vm_compute; reflexivity|].
  split; [exists 40%nat; eexists; split; [vm_compute; reflexivity|vm_compute; reflexivity]|].
  split; [exists 20%nat; cbv zeta; vm_compute; tauto|]. split; [vm_compute; reflexivity|]. cbn. intuition lia.
Qed.
Definition crossing_rows : list (list Z) :=
  [[0; 7; 18; 13; 39; 26; 29]; [7; 0; 11; 20; 32; 19; 36]; [18; 11; 0; 25; 23; 8; 37]; [13; 20; 25; 0; 46; 33; 34]; [39; 32; 23; 46; 0; 19; 14]; [26; 19; 8; 33; 19; 0; 33]; [29; 36; 37; 34; 14; 33; 0]].
Definition crossing : matrix := table crossing_rows.
Definition crossing_loads : demands := loads [0; 2; 4; 2; 4; 2; 3].
Definition overlapping (a b : list nat) : bool := true.
Lemma crossing_ok : wh_instance 0 7 crossing crossing_loads (Some 7) None (seq 1 6) first_gap as_listed.
Proof. apply (plain_ok crossing_rows); [vm_compute; reflexivity|lia]. Qed.
Lemma crossing_twice : exists rs0 rds rs, swept 0 7 crossing crossing_loads (Some 7) None (seq 1 6) (true, 0%nat) rs0 /\
  seen 0 7 crossing crossing_loads (Some 7) None (seq 1 6) overlapping first_gap as_listed true true (encode rs0) rds /\
  interrupted_at crossing true [] rds = Some (encode rs) /\ (2 <= count_occ Nat.eq_dec (concat rs) 3)%nat.
Proof.
  exists [[1; 2]; [3; 4]; [5; 6]]%nat,
    (hd [] (filter (fun rds => forallb (fun x => x) (map (fun p => Nat.eqb (fst p) (snd p)) (combine (to_sol rds) [0; 1; 2; 0; 3; 5; 0; 6; 3; 0]%nat)))
       (seen_at crossing crossing_loads (Some 7) (seq 1 6) overlapping true 14 (encode [[1; 2]; [3; 4]; [5; 6]]%nat)))), [[1; 2]; [3; 5]; [6; 3]]%nat.
  split; [exists 40%nat; vm_compute; reflexivity|]. split; [exists 14%nat; cbv zeta; vm_compute; tauto|]. split; [vm_compute; reflexivity|]. vm_compute. lia.
Qed.
