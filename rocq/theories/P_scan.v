(** * Generic theory of the improvement scans *)
From Verif Require Import Spec PyBase M_util M_intra P_base.
From Coq Require Import ZifyBool ZifyNat.

Lemma for_break_ext {A S} (l : list A) (f g : A -> S -> S * bool) :
  (forall x s, In x l -> f x s = g x s) -> forall s, for_break l f s = for_break l g s.
Proof.
  induction l as [|x l IH]; intros H s; [reflexivity|]. cbn. rewrite (H x s) by now left.
  destruct (g x s) as [s' []]; [reflexivity|]. apply IH. intros y s0 Hy. apply H. now right.
Qed.

Lemma for_break_app {A S} (body : A -> S -> S * bool) l1 l2 s :
  for_break (l1 ++ l2) body s =
  let (s', b) := for_break l1 body s in if b then (s', true) else for_break l2 body s'.
Proof.
  revert s. induction l1 as [|x l1 IH]; intros s; [reflexivity|]. cbn.
  destruct (body x s) as [s' []]; [reflexivity|]. apply IH.
Qed.

Lemma for_break_flat {A B S} (l : list A) (g : A -> list B) (body : B -> S -> S * bool) s :
  for_break l (fun x s => for_break (g x) body s) s = for_break (flat_map g l) body s.
Proof.
  revert s. induction l as [|x l IH]; intros s; [reflexivity|]. cbn [for_break flat_map].
  rewrite for_break_app. destruct (for_break (g x) body s) as [s' []]; [reflexivity|]. apply IH.
Qed.

Lemma if_cases {X} (P : X -> Prop) (b : bool) x y :
  (b = true -> P x) -> (b = false -> P y) -> P (if b then x else y).
Proof. destruct b; auto. Qed.

Section Scan.
Context {M : Type}.
Variables (eps : Z) (first : bool).

Definition scan (cands : list (Z * M)) (s : option M * Z) : (option M * Z) * bool :=
  for_break cands (fun c s => try_move eps first (fst c) (snd c) s) s.

Lemma scan_one dl m s : scan [(dl, m)] s = try_move eps first dl m s.
Proof. unfold scan, try_move. cbn. destruct (dl + eps <? snd s); [|reflexivity]. destruct first; reflexivity. Qed.

Lemma scan_nil s : scan [] s = (s, false).
Proof. reflexivity. Qed.

(** Outcome of a scan started without a move. *)
Definition scan_post (cands : list (Z * M)) (b0 : Z) (r : option M * Z) : Prop :=
  match fst r with
  | None => snd r = b0 /\ forall dl m, In (dl, m) cands -> b0 <= dl + eps
  | Some m => In (snd r, m) cands /\ snd r + eps < b0 /\
      (first = false -> forall dl m', In (dl, m') cands -> snd r <= dl + eps) /\
      (first = true -> exists l1 l2, cands = l1 ++ (snd r, m) :: l2 /\
                        forall dl m', In (dl, m') l1 -> b0 <= dl + eps)
  end.

Lemma scan_spec cands b0 : 0 <= eps -> scan_post cands b0 (fst (scan cands (None, b0))).
Proof.
  intros Heps.
  assert (G : forall cs pre s, scan_post pre b0 s -> (first = true -> fst s = None) ->
     scan_post (pre ++ cs) b0 (fst (scan cs s))).
  { induction cs as [|[dl m] cs IH]; intros pre s Hs Hf; [now rewrite app_nil_r|].
    unfold scan. cbn [for_break fst snd]. unfold try_move at 1.
    replace (pre ++ (dl, m) :: cs) with ((pre ++ [(dl, m)]) ++ cs) by (rewrite <- app_assoc; reflexivity).
    destruct (Z.ltb_spec (dl + eps) (snd s)) as [Hlt|Hge].
    - assert (Hnew : scan_post (pre ++ [(dl, m)]) b0 (Some m, dl)).
      { unfold scan_post in *. cbn [fst snd] in *. destruct s as [[m0|] bd]; cbn [fst snd] in *.
        - destruct Hs as (H1 & H2 & H3 & H4). repeat split.
          + apply in_or_app; right; now left.
          + lia.
          + intros E dl' m' Hin. apply in_app_or in Hin. destruct Hin as [Hin|[Hin|[]]].
            * specialize (H3 E dl' m' Hin). lia.
            * injection Hin as -> ->. lia.
          + intros E. specialize (Hf E). discriminate.
        - destruct Hs as (H1 & H2). subst bd. repeat split.
          + apply in_or_app; right; now left.
          + lia.
          + intros E dl' m' Hin. apply in_app_or in Hin. destruct Hin as [Hin|[Hin|[]]].
            * specialize (H2 dl' m' Hin). lia.
            * injection Hin as -> ->. lia.
          + intros E. exists pre, []. split; [reflexivity|]. exact H2. }
      apply (if_cases (fun r => scan_post _ b0 (fst r))); intros Ef; cbn [fst].
      + (* break *)
        unfold scan_post in *. cbn [fst snd] in *. destruct Hnew as (H1 & H2 & H3 & H4).
        repeat split; [apply in_or_app; now left|exact H2|congruence|].
        intros _. destruct (H4 Ef) as (l1 & l2 & E & Hl). exists l1, (l2 ++ cs).
        split; [now rewrite E, <- app_assoc|exact Hl].
      + apply (IH (pre ++ [(dl, m)]) (Some m, dl)); [exact Hnew|intros E; congruence].
    - apply (IH (pre ++ [(dl, m)]) s); [|exact Hf].
      unfold scan_post in *. destruct s as [[m0|] bd]; cbn [fst snd] in *.
      + destruct Hs as (H1 & H2 & H3 & H4). repeat split.
        * apply in_or_app; now left.
        * exact H2.
        * intros E dl' m' Hin. apply in_app_or in Hin. destruct Hin as [Hin|[Hin|[]]]; [now apply (H3 E dl' m')|].
          injection Hin as -> ->. lia.
        * intros E. specialize (Hf E). discriminate.
      + destruct Hs as (H1 & H2). split; [exact H1|].
        intros dl' m' Hin. apply in_app_or in Hin. destruct Hin as [Hin|[Hin|[]]]; [now apply (H2 dl' m')|].
        injection Hin as -> ->. lia. }
  apply (G cands [] (None, b0)); [|reflexivity]. cbn. split; [reflexivity|easy].
Qed.

(** Testing another move with the delta just tested changes nothing. *)
Lemma scan_stale dl m1 m2 rest s : 0 <= eps ->
  scan ((dl, m1) :: (dl, m2) :: rest) s = scan ((dl, m1) :: rest) s.
Proof.
  intros Heps. unfold scan. cbn [for_break fst snd].
  destruct (try_move eps first dl m1 s) as [s' b] eqn:E. destruct b; [reflexivity|].
  assert (E2 : try_move eps first dl m2 s' = (s', false)).
  { unfold try_move in *. destruct (Z.ltb_spec (dl + eps) (snd s)) as [Hlt|Hge].
    - injection E as <- Ef. cbn [snd]. destruct (Z.ltb_spec (dl + eps) dl); [lia|reflexivity].
    - injection E as <-. destruct (Z.ltb_spec (dl + eps) (snd s)); [lia|reflexivity]. }
  now rewrite E2.
Qed.

Lemma scan_flat {A} (l : list A) (h : A -> list (Z * M)) s :
  for_break l (fun x s => scan (h x) s) s = scan (flat_map h l) s.
Proof. apply for_break_flat. Qed.

Lemma scan_app l1 l2 s : scan (l1 ++ l2) s =
  let (s', b) := scan l1 s in if b then (s', true) else scan l2 s'.
Proof. apply for_break_app. Qed.
End Scan.

Lemma in_range x a b : In x (range a b) <-> (a <= x < b)%nat.
Proof. unfold range. rewrite in_seq. lia. Qed.
