(** * The TSP solver with Gurobi: results *)
From Verif Require Import PyBase M_tspg P_tspg P_tspg2 Spec_tspg Spec_rfcs Spec.
From Coq Require Import ZifyBool ZifyNat Lia List Permutation.
Import ListNotations.

Lemma solved_tour gurobi n c : tsp_honest gurobi -> (forall i j, c i j = c j i) -> (3 <= n)%nat ->
  match gurobi n c with
  | TspSolved x => exists t, subtour (edge_list x n) n = Some (0%nat :: t) /\ Permutation (0%nat :: t) (seq 0 n) /\ tsp_obj n c x = path_cost c (0%nat :: t ++ [0%nat]) /\
      forall p, Permutation p (seq 0 n) -> (tsp_obj n c x <= path_cost c (p ++ firstn 1 p))%Z
  | TspInfeasible => False
  | _ => True
  end.
Proof.
  intros HG Hc Hn. specialize (HG n c).
  assert (HP : forall p, Permutation p (seq 0 n) -> below n p /\ length p = n).
  { intros p P. split; [split; [eapply Permutation_NoDup; [symmetry; exact P|apply seq_NoDup]|]|rewrite (Permutation_length P); apply seq_length]. intros a Ha. apply (Permutation_in _ P) in Ha. apply in_seq in Ha. lia. }
  assert (HM : forall p seen, Permutation p (seq 0 n) -> Forall (degree_two n) seen -> Forall (meets n (tour_x p)) seen).
  { intros p seen P F. destruct (HP p P) as [B L]. eapply Forall_impl; [|exact F]. intros y Hy. apply tour_meets; assumption. }
  destruct (gurobi n c) as [x| | |]; auto.
  - destruct HG as (seen & Hx & FD & FM & Hmin). assert (H2 : degree_two n x) by (rewrite Forall_forall in FD; auto). assert (HMx : meets n x x) by (rewrite Forall_forall in FM; auto).
    destruct (own_cut n x H2 ltac:(lia) HMx) as (t & E & HR & HB & HL & _). exists t. split; [exact E|]. split.
    + apply NoDup_Permutation_bis; [apply HB|rewrite seq_length, HL; lia|]. intros a Ha. apply in_seq. destruct HB as [_ Hb]. specialize (Hb a Ha). lia.
    + split; [rewrite (ring_obj n c x (0%nat :: t)); auto|]. intros p P. destruct (HP p P) as [B L]. rewrite <- (ring_obj n c (tour_x p) p); auto using tour_ring; [|now apply tour_degree].
      apply Hmin; [now apply tour_degree|]. now apply HM.
  - destruct HG as (seen & FD & HN). destruct (HP (seq 0 n) (Permutation_refl _)) as [B L]. apply (HN (tour_x (seq 0 n))); [now apply tour_degree|]. now apply HM.
Qed.

Lemma path_cost_map D f l : path_cost D (map f l) = path_cost (fun i j => D (f i) (f j)) l.
Proof. induction l as [|a l IH]; [reflexivity|]. destruct l as [|b l]; [reflexivity|]. cbn [map path_cost] in *. now rewrite IH. Qed.
(** All closed tours of two or three nodes are equally long. *)
Lemma small_tour D l sol : symmetric D -> NoDup l -> (2 <= length l <= 3)%nat -> closed_tour l sol -> path_cost D sol = path_cost D (l ++ firstn 1 l).
Proof.
  intros HS Hn Hl (f & t & -> & Hh & P). destruct l as [|a l]; [discriminate|]. cbn in Hh. injection Hh as ->. apply Permutation_cons_inv in P.
  destruct l as [|b [|c [|? ?]]]; try (cbn in Hl; lia).
  - apply Permutation_sym, Permutation_length_1_inv in P. subst. reflexivity.
  - apply Permutation_sym, Permutation_length_2_inv in P. destruct P as [->| ->]; [reflexivity|]. cbn. rewrite (HS f c), (HS c b), (HS b f). lia.
Qed.
Fixpoint position (a : nat) (l : list nat) : nat := match l with [] => 0 | b :: t => if Nat.eqb a b then 0 else S (position a t) end.
Lemma position_nth d a l : In a l -> nth (position a l) l d = a.
Proof. induction l as [|b l IH]; intros H; [destruct H|]. cbn [position]. destruct (Nat.eqb_spec a b) as [->|N]; [reflexivity|]. cbn. apply IH. destruct H as [<-|H]; [congruence|exact H]. Qed.
Lemma position_lt a l : In a l -> (position a l < length l)%nat.
Proof. induction l as [|b l IH]; intros H; [destruct H|]. cbn [position]. destruct (Nat.eqb_spec a b) as [->|N]; [cbn; lia|]. cbn. destruct H as [<-|H]; [congruence|]. specialize (IH H). lia. Qed.
Lemma positions p l : Permutation p l -> NoDup l -> Permutation (map (fun a => position a l) p) (seq 0 (length l)).
Proof.
  intros P Hn. apply NoDup_Permutation_bis.
  - assert (Hp : NoDup p) by (eapply Permutation_NoDup; [symmetry; exact P|exact Hn]). assert (Hi : forall a, In a p -> In a l) by (intros a Ha; now apply (Permutation_in _ P)). clear P.
    induction p as [|a p IH]; [constructor|]. inversion Hp; subst. cbn [map]. constructor; [|apply IH; [assumption|intros; apply Hi; now right]]. intros G. apply in_map_iff in G. destruct G as (b & E & Hb).
    assert (b = a). { rewrite <- (position_nth 0 b l), <- (position_nth 0 a l), E; auto; apply Hi; [now left|now right]. } subst. contradiction.
  - rewrite map_length, seq_length, (Permutation_length P). lia.
  - intros k Hk. apply in_map_iff in Hk. destruct Hk as (a & <- & Ha). apply in_seq. apply (Permutation_in _ P) in Ha. apply position_lt in Ha. lia.
Qed.
Lemma last_app1 (l : list nat) (a d : nat) : last (l ++ [a]) d = a.
Proof. apply last_last. Qed.
Section Solve.
Variables (gurobi : nat -> (nat -> nat -> Z) -> tsp_status) (D : matrix).
Hypotheses (HG : tsp_honest gurobi) (HS : symmetric D).
Variables (l selected : list nat).
Hypotheses (Hn : NoDup l) (H2 : (2 <= length l)%nat) (Hsel : selected = l \/ selected = l ++ firstn 1 l).
Lemma sel_facts : exists f t, l = f :: t /\ hd_error selected = Some f /\ (if Nat.eqb f (last selected f) then (length selected - 1)%nat else length selected) = length l /\
  (if Nat.eqb f (last selected f) then selected else selected ++ [f]) = l ++ [f] /\ forall i, (i < length l)%nat -> nth i selected 0%nat = nth i l 0%nat.
Proof.
  destruct l as [|f t] eqn:El; [cbn in H2; lia|]. exists f, t. split; [reflexivity|]. destruct Hsel as [->| ->].
  - split; [reflexivity|]. destruct t as [|b t]; [cbn in H2; lia|]. assert (N : f <> last (f :: b :: t) f).
    { intros E. destruct (exists_last (l := b :: t)) as (t' & z & E'); [discriminate|]. rewrite E' in *. replace (last (f :: t' ++ [z]) f) with z in E by (change (f :: t' ++ [z]) with ((f :: t') ++ [z]); now rewrite last_last). subst z. inversion Hn; subst. apply H1, in_or_app. right. now left. }
    destruct (Nat.eqb_spec f (last (f :: b :: t) f)); [contradiction|]. auto.
  - cbn [firstn app]. split; [reflexivity|]. replace (last (f :: t ++ [f]) f) with f by (change (f :: t ++ [f]) with ((f :: t) ++ [f]); now rewrite last_last). rewrite Nat.eqb_refl. split; [cbn [length]; rewrite app_length; cbn; lia|]. split; [reflexivity|].
    intros i Hi. change (f :: t ++ [f]) with ((f :: t) ++ [f]). now rewrite app_nth1.
Qed.
Lemma gurobi_result :
  match solve_tsp_gurobi gurobi D selected with
  | TspReturns sol len => exists s, sol = Some s /\ closed_tour l s /\ len = path_cost D s /\ shortest_length D l len
  | TspGurobiError | TspKeyboardInterrupt => gurobi (length l) (fun i j => D (nth i selected 0%nat) (nth j selected 0%nat)) = TspTimeLimit \/ gurobi (length l) (fun i j => D (nth i selected 0%nat) (nth j selected 0%nat)) = TspInterrupted
  | TspAssertionError | TspIndexError => False
  end.
Proof.
  destruct sel_facts as (f & t & El & Hh & En & Es & Hnth). unfold solve_tsp_gurobi. destruct selected as [|f' sel] eqn:ESel; [discriminate|]. cbn in Hh. injection Hh as ->. rewrite <- ESel in *. cbv zeta. rewrite En, Es.
  assert (HCT : closed_tour l (l ++ [f])) by (exists f, t; rewrite El; auto).
  destruct (Nat.leb_spec (length l) 3) as [G|G].
  - destruct (Nat.ltb_spec 1 (length l)); [|lia]. exists (l ++ [f]). split; [reflexivity|]. split; [exact HCT|]. split; [reflexivity|]. intros sol Hsol. rewrite (small_tour D l sol) by (auto; lia). rewrite El. cbn. lia.
  - pose proof (solved_tour gurobi (length l) (fun i j => D (nth i selected 0%nat) (nth j selected 0%nat)) HG (fun i j => HS _ _) ltac:(lia)) as HT.
    destruct (gurobi (length l) _) as [x| | |]; [|contradiction|left; reflexivity|right; reflexivity]. destruct HT as (tt & E & P & EO & Hmin). rewrite E. rewrite (Permutation_length P), seq_length, Nat.eqb_refl.
    assert (E0 : nth 0 selected 0%nat = f) by (rewrite ESel; reflexivity).
    assert (EM : map (fun i => nth i selected 0%nat) (0%nat :: tt) ++ [f] = map (fun i => nth i selected 0%nat) (0%nat :: tt ++ [0%nat])) by (cbn [map]; rewrite map_app; cbn [map]; rewrite E0; reflexivity).
    eexists. split; [reflexivity|]. split; [|split].
    + exists f, (map (fun i => nth i selected 0%nat) tt). cbn [map]. rewrite E0. split; [reflexivity|]. split; [rewrite El; reflexivity|].
      rewrite <- E0 at 1. change (nth 0 selected 0%nat :: map (fun i => nth i selected 0%nat) tt) with (map (fun i => nth i selected 0%nat) (0%nat :: tt)).
      rewrite (Permutation_map _ P). rewrite (map_ext_in _ (fun i => nth i l 0%nat)) by (intros i Hi; apply in_seq in Hi; apply Hnth; lia).
      clear. assert (Hm : forall pre m, map (fun i => nth i (pre ++ m) 0%nat) (seq (length pre) (length m)) = m); [|pose proof (Hm [] l) as E; cbn [app length] in E; rewrite E; reflexivity].
      intros pre m. revert pre. induction m as [|a m IH]; intros pre; [reflexivity|]. cbn [length seq map]. rewrite app_nth2, Nat.sub_diag by lia. cbn [nth]. f_equal. specialize (IH (pre ++ [a])). rewrite <- app_assoc in IH. cbn [app] in IH. rewrite app_length in IH. cbn [length] in IH. rewrite Nat.add_1_r in IH. exact IH.
    + rewrite EM, path_cost_map. exact EO.
    + intros sol (g & t' & -> & Hg & P'). rewrite El in Hg. cbn in Hg. injection Hg as <-. pose proof (positions _ _ P' Hn) as PP. specialize (Hmin _ PP). cbn [map firstn app] in Hmin.
      replace (path_cost D (f :: t' ++ [f])) with (path_cost (fun i j => D (nth i selected 0%nat) (nth j selected 0%nat)) (position f l :: map (fun a => position a l) t' ++ [position f l])); [exact Hmin|].
      assert (EQ : position f l :: map (fun a => position a l) t' ++ [position f l] = map (fun a => position a l) (f :: t' ++ [f])) by (cbn [map]; rewrite map_app; reflexivity).
      rewrite EQ, <- path_cost_map. rewrite map_map. f_equal. rewrite <- (map_id (f :: t' ++ [f])) at 2. apply map_ext_in. intros a Ha. assert (Ia : In a l). { apply (Permutation_in _ P'). destruct Ha as [<-|Ha]; [now left|]. apply in_app_or in Ha. destruct Ha as [Ha|[<-|[]]]; [now right|now left]. }
      rewrite Hnth by now apply position_lt. now apply position_nth.
Qed.
End Solve.

Lemma gurobi_exact N D gurobi : tsp_honest gurobi -> tsp_patient gurobi -> symmetric D -> solver N D (gurobi_tsp gurobi D) /\ improver N D (gurobi_tsp gurobi D) /\ exact_solver N D (gurobi_tsp gurobi D).
Proof.
  intros HG HP HS. assert (G : forall l, l <> [] -> NoDup l -> (forall j, In j l -> (1 <= j < N)%nat) -> forall sel, sel = 0%nat :: l \/ sel = 0%nat :: l ++ [0%nat] ->
    exists l', gurobi_tsp gurobi D sel = (0%nat :: l' ++ [0%nat], route_cost D l') /\ Permutation l' l /\ forall p, Permutation p l -> (route_cost D l' <= route_cost D p)%Z).
  { intros l Hne Hn Hb sel Hsel. assert (Hn0 : NoDup (0%nat :: l)) by (constructor; [intros H; specialize (Hb _ H); lia|exact Hn]).
    assert (H2 : (2 <= length (0%nat :: l))%nat) by (destruct l; [contradiction|cbn; lia]).
    pose proof (gurobi_result gurobi D HG HS (0%nat :: l) sel Hn0 H2 Hsel) as GR. unfold gurobi_tsp. destruct (solve_tsp_gurobi gurobi D sel) as [sol len| | | |]; try contradiction.
    - destruct GR as (s & -> & (f & t & -> & Hf & P) & -> & HM). cbn in Hf. injection Hf as <-. apply Permutation_cons_inv in P. exists t. split; [reflexivity|]. split; [exact P|]. intros p Pp. apply HM. exists 0%nat, p. auto.
    - exfalso. destruct (HP (length (0%nat :: l)) (fun i j => D (nth i sel 0%nat) (nth j sel 0%nat))). intuition.
    - exfalso. destruct (HP (length (0%nat :: l)) (fun i j => D (nth i sel 0%nat) (nth j sel 0%nat))). intuition. }
  split; [|split].
  - intros l H1 Hn Hb. destruct (G l H1 Hn Hb (0%nat :: l) (or_introl eq_refl)) as (l' & E & P & _). eauto.
  - intros l H1 Hn Hb. destruct (G l H1 Hn Hb (0%nat :: l ++ [0%nat]) (or_intror eq_refl)) as (l' & E & P & M). exists l'. split; [exact E|]. split; [exact P|]. apply M. reflexivity.
  - intros l p H1 Hn Hb P. destruct (G l H1 Hn Hb (0%nat :: l) (or_introl eq_refl)) as (l' & E & _ & M). rewrite E. cbn [snd]. now apply M.
Qed.
Lemma gurobi_one gurobi D a : solve_tsp_gurobi gurobi D [a] = TspReturns None 0.
Proof. unfold solve_tsp_gurobi. cbn. rewrite Nat.eqb_refl. reflexivity. Qed.
