(** * The TSP solver with LKH: results *)
From Verif Require Import PyBase M_text M_io P_text M_tspx P_tspg P_tspg2 P_tspg3 P_tspx Spec_io Spec_tspx Spec_tspg Spec_rfcs Spec.
From Coq Require Import ZifyBool ZifyNat Lia List Permutation.
Import ListNotations.

(** ** Sorting *)
Lemma node_insert_perm x l : Permutation (node_insert x l) (x :: l).
Proof. induction l as [|y l IH]; [reflexivity|]. cbn [node_insert]. destruct (x <=? y)%nat; [reflexivity|]. rewrite IH. apply perm_swap. Qed.
Lemma node_sort_perm l : Permutation (node_sort l) l.
Proof. induction l as [|x l IH]; [reflexivity|]. cbn [node_sort fold_right]. fold (node_sort l). rewrite node_insert_perm, IH. reflexivity. Qed.
Lemma node_sort_min l : forall a t, node_sort l = a :: t -> forall b, In b l -> (a <= b)%nat.
Proof.
  induction l as [|x l IH]; intros a t E b Hb; [destruct Hb|]. cbn [node_sort fold_right] in E. fold (node_sort l) in E. destruct (node_sort l) as [|y s] eqn:Es.
  - assert (l = []) by (pose proof (node_sort_perm l) as P; rewrite Es in P; now apply Permutation_nil in P). subst. cbn in E. injection E as <- <-. destruct Hb as [<-|[]]. lia.
  - cbn [node_insert] in E. destruct (Nat.leb_spec x y) as [G|G]; injection E as <- <-.
    + destruct Hb as [<-|Hb]; [lia|]. specialize (IH y s eq_refl b Hb). lia.
    + destruct Hb as [<-|Hb]; [lia|]. exact (IH y s eq_refl b Hb).
Qed.
Lemma sorted_trip l a t : node_sort l = a :: t -> round_trip l ((a :: t) ++ [a]).
Proof.
  intros E. exists (a :: t). split; [reflexivity|]. split; [rewrite <- E; apply node_sort_perm|]. intros H. pose proof (node_sort_min l a t E _ H). cbn. f_equal. lia.
Qed.
Lemma node_sort_some l : l <> [] -> exists a t, node_sort l = a :: t.
Proof. intros H. destruct (node_sort l) as [|a t] eqn:E; [|eauto]. pose proof (node_sort_perm l) as P. rewrite E in P. apply Permutation_nil in P. contradiction. Qed.

(** ** Lengths *)
Lemma tour_length_steps W s : tour_length W s = sumZ (map (fun e => W (fst e) (snd e)) (ring_steps s)).
Proof. apply path_cost_steps. Qed.
Lemma tour_length_rotate W l1 l2 : tour_length W (l1 ++ l2) = tour_length W (l2 ++ l1).
Proof. rewrite !tour_length_steps. apply sumZ_perm, Permutation_map, ring_rotate. Qed.
Lemma tour_length_map (D : matrix) f s : tour_length D (map f s) = tour_length (fun i j => D (f i) (f j)) s.
Proof. unfold tour_length. rewrite firstn_map, <- map_app. apply path_cost_map. Qed.
Lemma path_cost_ext (D E : matrix) : forall l, (forall i j, In i l -> In j l -> D i j = E i j) -> path_cost D l = path_cost E l.
Proof. induction l as [|a l IH]; intros H; [reflexivity|]. destruct l as [|b l]; [reflexivity|]. cbn [path_cost] in *. rewrite IH by (intros; apply H; now right). rewrite H by (cbn; auto). reflexivity. Qed.
(** All tours of at most three nodes are equally long. *)
Lemma small_length D s s' : symmetric D -> NoDup s -> (length s <= 3)%nat -> Permutation s' s -> tour_length D s' = tour_length D s.
Proof.
  intros HS Hn Hl P. destruct s as [|a s]; [apply Permutation_sym, Permutation_nil in P; now subst|].
  assert (Ia : In a s') by (apply (Permutation_in _ (Permutation_sym P)); now left). destruct (in_split _ _ Ia) as (l1 & l2 & ->). rewrite tour_length_rotate. cbn [app].
  assert (P' : Permutation (l2 ++ l1) s) by (apply (Permutation_cons_inv (a := a)); rewrite <- P; apply (Permutation_app_comm (a :: l2) l1)).
  destruct s as [|b s]; [apply Permutation_sym, Permutation_nil in P'; now rewrite P'|]. unfold tour_length. cbn [firstn app].
  apply (small_tour D (a :: b :: s)); [exact HS|exact Hn|cbn in *; lia|]. exists a, (l2 ++ l1). split; [reflexivity|]. split; [reflexivity|]. now constructor.
Qed.

(** ** LKH *)
Section Lkh.
Variables (lkh : text -> text) (unit : option Z) (acc : Z) (N : nat) (D : matrix) (sel : list nat).
Hypotheses (Hn : NoDup sel) (HD : distances D sel).
Let w : matrix := fun i j => weight unit acc (D i j).
Let den := match unit with None => 1%Z | Some _ => acc end.
Lemma lkh_tour : (4 <= length sel)%nat -> lkh_writes_tours lkh -> exists sol, solve_tsp_lkh lkh unit acc N D sel = Ok (sol, (path_cost w sol, den)) /\ round_trip sel sol.
Proof.
  intros H4 HL. unfold solve_tsp_lkh. destruct (Nat.leb_spec (length sel) 3); [lia|]. assert (Hne : sel <> []) by (intros ->; cbn in H4; lia). cbv zeta.
  destruct (HL _ _ _ (problem_describes unit acc N D sel Hne HD) H4) as (tour & P & F). destruct (lkh_read sel tour _ _ Hn Hne P F) as (s & l1 & l2 & E & Em & Es & Ps & H0).
  assert (EL : tour_length (fun a b => weight unit acc (D (nth a sel 0%nat) (nth b sel 0%nat))) tour = path_cost w (s ++ firstn 1 s)).
  { change (tour_length (fun a b => w (nth a sel 0%nat) (nth b sel 0%nat)) tour = tour_length w s). rewrite <- (tour_length_map w (fun k => nth k sel 0%nat)), Em, Es. apply tour_length_rotate. }
  exists (s ++ firstn 1 s). split; [|exists s; auto]. rewrite <- EL. destruct (lkh_loop _ _ _) as [st|e]; [|discriminate]. cbn [bind] in *. destruct (lkh_close st) as [sol|e]; [|discriminate]. cbn [bind] in *. injection E as -> ->. reflexivity.
Qed.
Lemma lkh_best : (4 <= length sel)%nat -> lkh_optimal lkh -> exists sol, solve_tsp_lkh lkh unit acc N D sel = Ok (sol, (path_cost w sol, den)) /\ round_trip sel sol /\
  forall s', Permutation s' sel -> (path_cost w sol <= tour_length w s')%Z.
Proof.
  intros H4 HL. unfold solve_tsp_lkh. destruct (Nat.leb_spec (length sel) 3); [lia|]. assert (Hne : sel <> []) by (intros ->; cbn in H4; lia). cbv zeta.
  destruct (HL _ _ _ (problem_describes unit acc N D sel Hne HD) H4) as (tour & P & F & HM). destruct (lkh_read sel tour _ _ Hn Hne P F) as (s & l1 & l2 & E & Em & Es & Ps & H0).
  assert (EL : tour_length (fun a b => weight unit acc (D (nth a sel 0%nat) (nth b sel 0%nat))) tour = path_cost w (s ++ firstn 1 s)).
  { change (tour_length (fun a b => w (nth a sel 0%nat) (nth b sel 0%nat)) tour = tour_length w s). rewrite <- (tour_length_map w (fun k => nth k sel 0%nat)), Em, Es. apply tour_length_rotate. }
  exists (s ++ firstn 1 s). split; [|split; [exists s; auto|]].
  - rewrite <- EL. destruct (lkh_loop _ _ _) as [st|e]; [|discriminate]. cbn [bind] in *. destruct (lkh_close st) as [sol|e]; [|discriminate]. cbn [bind] in *. injection E as -> ->. reflexivity.
  - intros s' Ps'. rewrite <- EL. specialize (HM _ (positions s' sel Ps' Hn)). replace (tour_length w s') with (tour_length (fun a b => weight unit acc (D (nth a sel 0%nat) (nth b sel 0%nat))) (map (fun a => position a sel) s')); [exact HM|].
    change (tour_length (fun a b => w (nth a sel 0%nat) (nth b sel 0%nat)) (map (fun a => position a sel) s') = tour_length w s'). rewrite <- (tour_length_map w (fun k => nth k sel 0%nat)), map_map. f_equal. rewrite <- (map_id s') at 2.
    apply map_ext_in. intros a Ha. apply position_nth. now apply (Permutation_in _ Ps').
Qed.
End Lkh.
Lemma lkh_small lkh unit acc N D sel : sel <> [] -> (length sel <= 3)%nat -> exists sol, solve_tsp_lkh lkh unit acc N D sel = Ok (sol, (path_cost (fun i j => int_of unit (D i j)) sol, 1%Z)) /\ round_trip sel sol.
Proof.
  intros Hne H. unfold solve_tsp_lkh. destruct (Nat.leb_spec (length sel) 3); [|lia]. destruct (node_sort_some sel Hne) as (a & t & E). rewrite E. exists ((a :: t) ++ [a]). split; [reflexivity|]. now apply sorted_trip.
Qed.
(** Integer distances *)
Lemma lkh_integer lkh acc N D sel : lkh_writes_tours lkh -> distances D sel -> NoDup sel -> sel <> [] -> exists sol, solve_tsp_lkh lkh None acc N D sel = Ok (sol, (path_cost D sol, 1%Z)) /\ round_trip sel sol.
Proof.
  intros HL HD Hn Hne. destruct (le_lt_dec (length sel) 3) as [G|G].
  - exact (lkh_small lkh None acc N D sel Hne G).
  - destruct (lkh_tour lkh None acc N D sel Hn HD G HL) as (sol & E & R). exists sol. auto.
Qed.
Lemma lkh_shortest lkh acc N D sel sol len : lkh_optimal lkh -> distances D sel -> NoDup sel -> solve_tsp_lkh lkh None acc N D sel = Ok (sol, (len, 1%Z)) -> forall other, round_trip sel other -> (len <= path_cost D other)%Z.
Proof.
  intros HL HD Hn E other (s' & -> & P & _). destruct (le_lt_dec (length sel) 3) as [G|G].
  - destruct sel as [|a0 sel']; [discriminate|]. destruct (lkh_small lkh None acc N D (a0 :: sel') ltac:(discriminate) G) as (sol' & E' & s & -> & Ps & _). rewrite E in E'. injection E' as -> ->.
    change (tour_length D s <= tour_length D s')%Z. rewrite (small_length D s s'); [lia|apply HD|eapply Permutation_NoDup; [symmetry; exact Ps|exact Hn]|rewrite (Permutation_length Ps); exact G|now rewrite P, Ps].
  - destruct (lkh_best lkh None acc N D sel Hn HD G HL) as (sol' & E' & _ & HM). rewrite E in E'. injection E' as -> ->. now apply HM.
Qed.
Lemma optimal_writes lkh : lkh_optimal lkh -> lkh_writes_tours lkh.
Proof. intros H file m W Hd Hm. destruct (H file m W Hd Hm) as (tour & P & F & _). eauto. Qed.
(** Float distances *)
Lemma pc_cons (D : matrix) a b l : path_cost D (a :: b :: l) = (D a b + path_cost D (b :: l))%Z.
Proof. reflexivity. Qed.
Lemma trunc_path u acc (D : matrix) : (0 < u)%Z -> (0 < acc)%Z -> (forall i j, (0 <= D i j)%Z) -> forall l, l <> [] ->
  (0 <= acc * path_cost D l - u * path_cost (fun i j => Z.quot (D i j * acc) u) l <= Z.of_nat (length l - 1) * (u - 1))%Z.
Proof.
  intros Hu Ha HD. induction l as [|a l IH]; intros Hl; [contradiction|]. destruct l as [|b l]; [cbn; lia|]. specialize (IH ltac:(discriminate)). rewrite !pc_cons. pose proof (Z.quot_rem' (D a b * acc) u) as E. pose proof (Z.rem_bound_pos (D a b * acc) u ltac:(specialize (HD a b); nia) Hu) as R.
  replace (length (a :: b :: l) - 1)%nat with (S (length (b :: l) - 1)) by (cbn; lia). rewrite Nat2Z.inj_succ. revert IH. generalize (path_cost D (b :: l)), (path_cost (fun i j => Z.quot (D i j * acc) u) (b :: l)), (Z.of_nat (length (b :: l) - 1)). cbv beta. intros P Q k IH.
  set (q := Z.quot (D a b * acc) u) in *. set (r := Z.rem (D a b * acc) u) in *. set (x := D a b) in *. clearbody q r x. nia.
Qed.
Lemma trip_length nodes sol : round_trip nodes sol -> nodes <> [] -> (length sol - 1)%nat = length nodes /\ sol <> [].
Proof. intros (s & -> & P & _) Hne. destruct s as [|a s]; [apply Permutation_nil in P; contradiction|]. apply Permutation_length in P. cbn [firstn]. rewrite app_length. cbn in *. split; [lia|discriminate]. Qed.
Lemma lkh_float lkh u acc N D sel : lkh_writes_tours lkh -> (0 < u)%Z -> (0 < acc)%Z -> (forall i j, (0 <= D i j)%Z) -> distances D sel -> NoDup sel -> sel <> [] ->
  exists sol num den, solve_tsp_lkh lkh (Some u) acc N D sel = Ok (sol, (num, den)) /\ round_trip sel sol /\ den = (if (length sel <=? 3)%nat then 1%Z else acc) /\
    (u * num <= den * path_cost D sol < u * (num + Z.of_nat (length sel)))%Z.
Proof.
  intros HL Hu Ha H0 HD Hn Hne. assert (HT : forall sol den num, (0 < den)%Z -> round_trip sel sol -> num = path_cost (fun i j => Z.quot (D i j * den) u) sol -> (u * num <= den * path_cost D sol < u * (num + Z.of_nat (length sel)))%Z).
  { intros sol den num Hd HR ->. destruct (trip_length _ _ HR Hne) as [EL Hs]. pose proof (trunc_path u den D Hu Hd H0 sol Hs) as T. rewrite EL in T. destruct sel; [contradiction|]. cbn [length] in *. nia. }
  destruct (Nat.leb_spec (length sel) 3) as [G|G].
  - destruct (lkh_small lkh (Some u) acc N D sel Hne G) as (sol & E & R). exists sol, (path_cost (fun i j => int_of (Some u) (D i j)) sol), 1%Z. split; [exact E|]. split; [exact R|]. split; [reflexivity|]. apply (HT sol 1%Z); [lia|exact R|]. apply path_cost_ext. intros. cbn. now rewrite Z.mul_1_r.
  - destruct (lkh_tour lkh (Some u) acc N D sel Hn HD G HL) as (sol & E & R). exists sol, (path_cost (fun i j => weight (Some u) acc (D i j)) sol), acc. split; [exact E|]. split; [exact R|]. split; [reflexivity|]. apply (HT sol acc); [exact Ha|exact R|reflexivity].
Qed.
Lemma lkh_near lkh u acc N D sel sol num den : lkh_optimal lkh -> (0 < u)%Z -> (0 < acc)%Z -> (forall i j, (0 <= D i j)%Z) -> distances D sel -> NoDup sel -> solve_tsp_lkh lkh (Some u) acc N D sel = Ok (sol, (num, den)) ->
  forall other, round_trip sel other -> (acc * path_cost D sol < acc * path_cost D other + u * Z.of_nat (length sel))%Z.
Proof.
  intros HL Hu Ha H0 HD Hn E other HR. assert (Hne : sel <> []) by (intros ->; discriminate). destruct (le_lt_dec (length sel) 3) as [G|G].
  - destruct (lkh_small lkh (Some u) acc N D sel Hne G) as (sol' & E' & s & -> & Ps & _). rewrite E in E'. injection E' as -> _ _. destruct HR as (s' & -> & P & _). change (acc * tour_length D s < acc * tour_length D s' + u * Z.of_nat (length sel))%Z.
    rewrite (small_length D s s'); [destruct sel; [contradiction|cbn [length]; nia]|apply HD|eapply Permutation_NoDup; [symmetry; exact Ps|exact Hn]|rewrite (Permutation_length Ps); exact G|now rewrite P, Ps].
  - destruct (lkh_best lkh (Some u) acc N D sel Hn HD G HL) as (sol' & E' & R & HM). rewrite E in E'. injection E' as -> _ _.
    destruct (trip_length _ _ R Hne) as [EL Hs]. pose proof (trunc_path u acc D Hu Ha H0 sol' Hs) as T. destruct (trip_length _ _ HR Hne) as [EL' Hs']. pose proof (trunc_path u acc D Hu Ha H0 other Hs') as T'.
    destruct HR as (s' & -> & P & _). specialize (HM s' P). unfold tour_length in HM. cbn [weight] in HM. rewrite EL in T. destruct sel; [contradiction|]. cbn [length] in *. nia.
Qed.
Lemma lkh_solver lkh N D : lkh_writes_tours lkh -> symmetric D -> (forall i, D i i = 0%Z) -> solver N D (lkh_tsp lkh N D).
Proof.
  intros HL HS H0 l Hne Hn Hb. destruct (lkh_integer lkh 1 N D (0%nat :: l) HL) as (sol & E & s & -> & P & Hh); [split; auto|constructor; [intros H; specialize (Hb _ H); lia|exact Hn]|discriminate|].
  unfold lkh_tsp. rewrite E. specialize (Hh (or_introl eq_refl)). destruct s as [|a l']; [discriminate|]. cbn in Hh. injection Hh as ->. exists l'. split; [reflexivity|]. now apply Permutation_cons_inv in P.
Qed.
Lemma lkh_exact_solver lkh N D : lkh_optimal lkh -> symmetric D -> (forall i, D i i = 0%Z) -> exact_solver N D (lkh_tsp lkh N D).
Proof.
  intros HL HS H0 l p Hne Hn Hb P. assert (Hn0 : NoDup (0%nat :: l)) by (constructor; [intros H; specialize (Hb _ H); lia|exact Hn]).
  destruct (lkh_integer lkh 1 N D (0%nat :: l) (optimal_writes _ HL)) as (sol & E & _); [split; auto|exact Hn0|discriminate|]. unfold lkh_tsp. rewrite E. cbn [snd].
  apply (lkh_shortest lkh 1 N D (0%nat :: l) _ _ HL) with (other := 0%nat :: p ++ [0%nat]) in E; [exact E|split; auto|exact Hn0|]. exists (0%nat :: p). split; [reflexivity|]. split; [now constructor|reflexivity].
Qed.
