(** * Model of classic_heuristics/matchingvrp.py: the matching based savings algorithm of Desrochers and Verhoog *)
From Verif Require Import Spec Spec_rfcs PyBase.

(** A [frozenset] of nodes: every set used holds the depot; the model keeps its customers, in ascending
    order, so that equal sets are equal lists.  [list(nodes)] is the depot and the customers in that
    order: the order in which CPython lists a set of integers is simplified to this one. *)
Definition nodeset := list nat.
Fixpoint ins (x : nat) (l : nodeset) : nodeset :=
  match l with
  | [] => [x]
  | y :: t => if Nat.ltb x y then x :: y :: t else if Nat.eqb x y then y :: t else y :: ins x t
  end.
(** [rs1.union(rs2)] *)
Definition union (a b : nodeset) : nodeset := fold_right ins b a.

Definition set_eqb (a b : nodeset) : bool := if list_eq_dec Nat.eq_dec a b then true else false.

(** [tsp_cache] (matchingvrp.py 273): a dictionary from sets to the tour and its length. *)
Definition tcache := list (nodeset * (list nat * Z)).
Fixpoint lookup (c : tcache) (s : nodeset) : option (list nat * Z) :=
  match c with [] => None | (k, e) :: t => if set_eqb s k then Some e else lookup t s end.

(** matchingvrp.py 106-109 [_get_tsp_sol] *)
Definition get_tsp (f : tsp) (c : tcache) (s : nodeset) : (list nat * Z) * tcache :=
  match lookup c s with
  | Some e => (e, c)
  | None => let e := f (0%nat :: s) in (e, (s, e) :: c)
  end.

(** matchingvrp.py 111-114 [_get_demand]: the sum over the set, the depot included.  The cache of sums is
    left out: it only keeps what is computed here. *)
Definition get_demand (d : demands) (s : nodeset) : Z := sumZ (map d (0%nat :: s)).

(** matchingvrp.py 130-147 [_calculate_savings]: the value and the cache after it. *)
Definition calc_savings (ceps seps : Z) (d : demands) (C L : limit) (f : tsp) (W : Z)
    (c : tcache) (s1 s2 : nodeset) : Z * tcache :=
  if exceeds C ceps (get_demand d s1 + get_demand d s2) then (W, c)
  else
    let '(e12, c1) := get_tsp f c (union s1 s2) in
    if exceeds L seps (snd e12) then (W, c1)
    else
      let '(e1, c2) := get_tsp f c1 s1 in
      let '(e2, c3) := get_tsp f c2 s2 in
      (snd e1 + snd e2 - snd e12, c3).

(** The caches an interrupt can find while 130-147 runs: before and after each tour is found. *)
Definition calc_caches (ceps seps : Z) (d : demands) (C L : limit) (f : tsp)
    (c : tcache) (s1 s2 : nodeset) : list tcache :=
  if exceeds C ceps (get_demand d s1 + get_demand d s2) then [c]
  else
    let '(e12, c1) := get_tsp f c (union s1 s2) in
    if exceeds L seps (snd e12) then [c; c1]
    else
      let '(e1, c2) := get_tsp f c1 s1 in
      let '(e2, c3) := get_tsp f c2 s2 in
      [c; c1; c2; c3].

(** A list comprehension over pairs of sets that calls 130-147 for each (matchingvrp.py 285-288 and
    342-345), with the pair of indices to note beside the value. *)
Definition savings := list (Z * (nat * nat)).
Definition task := (nodeset * nodeset * (nat * nat))%type.
Fixpoint price (calc : tcache -> nodeset -> nodeset -> Z * tcache) (c : tcache) (l : list task) : savings * tcache :=
  match l with
  | [] => ([], c)
  | (s1, s2, k) :: t =>
      let '(w, c1) := calc c s1 s2 in
      let '(ws, c2) := price calc c1 t in ((w, k) :: ws, c2)
  end.
Fixpoint price_caches (calc : tcache -> nodeset -> nodeset -> Z * tcache) (between : tcache -> nodeset -> nodeset -> list tcache)
    (c : tcache) (l : list task) : list tcache :=
  match l with
  | [] => []
  | (s1, s2, k) :: t => between c s1 s2 ++ price_caches calc between (snd (calc c s1 s2)) t
  end.

Definition set_at (sets : list nodeset) (i : nat) : nodeset := nth i sets [].

(** 285-288: all [(i,j)] with [i<j] *)
Definition first_tasks (sets : list nodeset) : list task :=
  flat_map (fun i => map (fun j => (set_at sets i, set_at sets j, (i, j))) (range (S i) (length sets))) (range 0 (length sets)).
(** 341-345: the new set with every other one *)
Definition new_tasks (i : nat) (sets : list nodeset) : list task :=
  flat_map (fun k => if Nat.eqb k i then [] else [(set_at sets i, set_at sets k, (i, k))]) (range 0 (length sets)).

(** What Gurobi reports (matchingvrp.py 83-104): the variables of an optimal solution, or the time limit,
    an interrupt, or another status. *)
Inductive mip := MipOptimal (x : list bool) | MipTimeLimit | MipInterrupted | MipOther.

(** matchingvrp.py 116-127 [_calculate_secondary_criteria] *)
Definition add_at (l : list Z) (i : nat) (v : Z) : list Z := set_nth i (nth i l 0 + v) l.
Definition secondary_criteria (sv : savings) (n : nat) : list Z :=
  let total := fold_left (fun t e => add_at (add_at t (fst (snd e)) (fst e)) (snd (snd e)) (fst e)) sv (repeat 0 n) in
  map (fun e => - (nth (fst (snd e)) total 0 + nth (snd (snd e)) total 0 - 2 * fst e)) sv.

(** [max] of tuples (weight, second weight, key): the order of tuples *)
Definition tuple_lt (a b : Z * Z * (nat * nat)) : bool :=
  let '(w1, v1, (i1, j1)) := a in let '(w2, v2, (i2, j2)) := b in
  if w1 <? w2 then true else if w2 <? w1 then false
  else if v1 <? v2 then true else if v2 <? v1 then false
  else if Nat.ltb i1 i2 then true else if Nat.ltb i2 i1 then false
  else Nat.ltb j1 j2.
Fixpoint tuple_max (best : Z * Z * (nat * nat)) (l : list (Z * Z * (nat * nat))) : Z * Z * (nat * nat) :=
  match l with [] => best | a :: t => tuple_max (if tuple_lt best a then a else best) t end.

Fixpoint chosen {A} (x : list bool) (l : list A) : list A :=
  match x, l with
  | b :: x', a :: l' => if b then a :: chosen x' l' else chosen x' l'
  | _, _ => []
  end.

(** matchingvrp.py 91-98: the best of the pairs chosen.  Without the second criterion the tuples have no
    second weight: the model gives them all the same one. *)
Inductive matching := MmBest (w : Z) (i j : nat) | MmNone | MmTimeLimit | MmInterrupted | MmEmpty.
Definition mmp_solve (mm : savings -> nat -> mip) (second : bool) (sv : savings) (n : nat) : matching :=
  match mm sv n with
  | MipOptimal x =>
      let s := if second then secondary_criteria sv n else repeat 0 (length sv) in
      match chosen x (combine (combine (map fst sv) s) (map snd sv)) with
      | [] => MmEmpty                                              (* max() of nothing: ValueError *)
      | a :: t => let '(w, _, (i, j)) := tuple_max a t in MmBest w i j
      end
  | MipTimeLimit => MmTimeLimit
  | MipInterrupted => MmInterrupted
  | MipOther => MmNone
  end.

(** The variables of the loop (matchingvrp.py 290-351) *)
Record mbst := Mbst { mb_sav : savings; mb_sets : list nodeset; mb_cache : tcache }.

Inductive mbdecision := DValueError | DTimeLimit | DInterrupted | DBreak | DContinue | DJoin (i j : nat).

(** matchingvrp.py 293-312: one round up to the merge.  [zip] of no savings is a ValueError. *)
Definition mb_decide (W : Z) (minimize_K second : bool) (mm : savings -> nat -> mip) (st : mbst) : mbdecision :=
  match mb_sav st with
  | [] => DValueError
  | sv =>
      if negb (existsb (fun e => negb (fst e =? W) && negb (fst e =? 0)) sv) then DBreak
      else
        match mmp_solve mm second sv (length (mb_sets st)) with
        | MmEmpty => DValueError
        | MmTimeLimit => DTimeLimit
        | MmInterrupted => DInterrupted
        | MmNone => DBreak
        | MmBest w i j =>
            if w =? W then DBreak
            else if negb minimize_K && (w <? 0) then DContinue
            else DJoin i j
        end
  end.

(** matchingvrp.py 329-334 *)
Definition filtered (i j : nat) (sv : savings) : savings :=
  flat_map (fun e => let '(sa, (si, sj)) := e in
    if negb (Nat.eqb si i) && negb (Nat.eqb sj i) && negb (Nat.eqb si j) && negb (Nat.eqb sj j)
    then [(sa, (if Nat.ltb si j then si else (si - 1)%nat, if Nat.ltb sj j then sj else (sj - 1)%nat))] else []) sv.

Definition del_nth {A} (j : nat) (l : list A) : list A := firstn j l ++ skipn (S j) l.

(** 337: the index of [i] once [j] is deleted *)
Definition moved (i j : nat) : nat := if Nat.ltb j i then (i - 1)%nat else i.

(** matchingvrp.py 319-346: the merge *)
Definition mb_joined (i j : nat) (sets : list nodeset) : list nodeset :=
  set_nth (moved i j) (union (set_at sets i) (set_at sets j)) (del_nth j sets).
Definition mb_join (calc : tcache -> nodeset -> nodeset -> Z * tcache) (i j : nat) (st : mbst) : mbst :=
  let sets := mb_joined i j (mb_sets st) in
  let '(ws, c) := price calc (mb_cache st) (new_tasks (moved i j) sets) in
  Mbst (filtered i j (mb_sav st) ++ ws) sets c.

(** ** The fallback when interrupted (matchingvrp.py 149-236) *)

(** An entry of [route_sets]: a set, or the index of the route it was merged into. *)
Inductive entry := Nodes (s : nodeset) | MergedInto (i : nat).

(** 155: [savings.sort(reverse=True)] *)
Definition sv_lt (a b : Z * (nat * nat)) : bool := tuple_lt (fst a, 0, snd a) (fst b, 0, snd b).
Fixpoint sv_insert (a : Z * (nat * nat)) (l : savings) : savings :=
  match l with [] => [a] | b :: t => if sv_lt a b then b :: sv_insert a t else a :: b :: t end.
Definition sv_sort (l : savings) : savings := fold_right sv_insert [] l.

(** What the loops change.  A [KeyError] ends them. *)
Record gst := Gst { g_sets : list entry; g_cache : tcache }.

(** 160-186: the first pass *)
Fixpoint first_pass (seps : Z) (D : matrix) (L : limit) (W : Z) (joined : list nat) (l : savings) (st : gst) : gst :=
  match l with
  | [] => st
  | (sa, (i, j)) :: t =>
      if sa =? W then st
      else if existsb (Nat.eqb i) joined || existsb (Nat.eqb j) joined then first_pass seps D L W joined t st
      else
        match nth i (g_sets st) (MergedInto 0), nth j (g_sets st) (MergedInto 0) with
        | Nodes si, Nodes sj =>
            let sij := union si sj in
            match lookup (g_cache st) sij with
            | None =>
                let r := 0%nat :: (0%nat :: sij) ++ [0%nat] in      (* [0]+list(nodes_ij)+[0] *)
                let fr := path_cost D r in
                let ok := match truthy L with Some l => fr - seps <? l | None => true end in
                first_pass seps D L W joined t (if ok then Gst (g_sets st) ((sij, (r, fr)) :: g_cache st) else st)
            | Some _ =>
                first_pass seps D L W (i :: j :: joined) t
                  (Gst (set_nth j (MergedInto i) (set_nth i (Nodes sij) (g_sets st))) (g_cache st))
            end
        | _, _ => first_pass seps D L W joined t st                 (* not reached: merged routes are skipped *)
        end
  end.

(** 192-195: follow the references *)
Fixpoint follow (fuel : nat) (sets : list entry) (i : nat) : option nat :=
  match fuel with
  | O => None
  | S k => match nth i sets (Nodes []) with MergedInto i' => follow k sets i' | Nodes _ => Some i end
  end.

Inductive gres := GOk (st : gst) | GKeyError | GNoEnd.

Definition inner (r : list nat) : list nat := removelast (tl r).    (* [1:-1] *)

(** 198-227: join two routes *)
Definition smash (ceps seps : Z) (D : matrix) (d : demands) (C L : limit) (i j : nat) (si sj : nodeset) (st : gst) : gres :=
  match lookup (g_cache st) si, lookup (g_cache st) sj with
  | Some (ri, li), Some (rj, lj) =>
      let ci := inner ri in let cj := inner rj in
      if exceeds C ceps (get_demand d si + get_demand d sj) then GOk st
      else
        let na := hd 0%nat ci in let nb := last ci 0%nat in let nc := hd 0%nat cj in let nd := last cj 0%nat in
        let a0 := li + lj + D nb nc - D nb 0%nat - D nc 0%nat in
        let a1 := li + lj + D na nc - D na 0%nat - D nc 0%nat in
        let a2 := li + lj + D nb nd - D nb 0%nat - D nd 0%nat in
        let a3 := li + lj + D na nd - D na 0%nat - D nd 0%nat in
        let m := Z.min (Z.min a0 a1) (Z.min a2 a3) in
        if exceeds L seps m then GOk st
        else
          let route := if m =? a0 then ci ++ cj else if m =? a1 then rev ci ++ cj else if m =? a2 then ci ++ rev cj else cj ++ ci in
          GOk (Gst (set_nth j (MergedInto i) (set_nth i (Nodes (union si sj)) (g_sets st)))
                   ((union si sj, (0%nat :: route ++ [0%nat], m)) :: g_cache st))
  | _, _ => GKeyError
  end.

(** 189-227: the second pass *)
Fixpoint second_pass (ceps seps : Z) (D : matrix) (d : demands) (C L : limit) (l : savings) (st : gst) : gres :=
  match l with
  | [] => GOk st
  | (_, (i0, j0)) :: t =>
      match follow (S (length (g_sets st))) (g_sets st) i0, follow (S (length (g_sets st))) (g_sets st) j0 with
      | Some i, Some j =>
          if Nat.eqb i j then second_pass ceps seps D d C L t st
          else
            match nth i (g_sets st) (MergedInto 0), nth j (g_sets st) (MergedInto 0) with
            | Nodes si, Nodes sj =>
                match smash ceps seps D d C L i j si sj st with
                | GOk st' => second_pass ceps seps D d C L t st'
                | r => r
                end
            | _, _ => GNoEnd                                        (* not reached: [follow] ends at a set *)
            end
      | _, _ => GNoEnd
      end
  end.

(** 231-236: the solution.  A [KeyError] if a set has no tour yet. *)
Fixpoint greedy_collect (c : tcache) (l : list entry) : option (list nat) :=
  match l with
  | [] => Some []
  | MergedInto _ :: t => greedy_collect c t
  | Nodes s :: t =>
      match lookup c s, greedy_collect c t with
      | Some (r, _), Some sol => Some (removelast r ++ sol)
      | _, _ => None
      end
  end.

Inductive greedy := GreedySol (sol : list nat) | GreedyKeyError | GreedyNoEnd.

(** matchingvrp.py 149-236 [_geedy_merge].  A second interrupt inside it is not modelled. *)
Definition greedy_merge (ceps seps : Z) (D : matrix) (d : demands) (C L : limit) (W : Z) (st : mbst) : greedy :=
  let sv := sv_sort (mb_sav st) in
  match second_pass ceps seps D d C L sv (first_pass seps D L W [] sv (Gst (map Nodes (mb_sets st)) (mb_cache st))) with
  | GOk g => match greedy_collect (g_cache g) (g_sets g) with Some sol => GreedySol (sol ++ [0%nat]) | None => GreedyKeyError end
  | GKeyError => GreedyKeyError
  | GNoEnd => GreedyNoEnd
  end.

(** ** The whole algorithm *)

(** Returned, or an exception; [KeyboardInterrupt] carries what the fallback makes. *)
Inductive mbout := MbReturn (sol : list nat) | MbValueError | MbGurobiError | MbInterrupt (g : greedy).

(** matchingvrp.py 358-360: the tours of the sets *)
Definition mb_finish (f : tsp) (st : mbst) : list nat :=
  0%nat :: flat_map (fun s => tl (fst (fst (get_tsp f (mb_cache st) s)))) (mb_sets st).

Section Mbsa.
Variables (ceps seps : Z) (N : nat) (D : matrix) (d : demands) (C L : limit) (minimize_K : bool) (W : Z)
          (f : tsp) (second : bool) (mm : savings -> nat -> mip).

Let calc := calc_savings ceps seps d C L f W.

(** matchingvrp.py 279-288 *)
Definition mb_sets0 : list nodeset := map (fun i => [i]) (range 1 N).
Definition mb_start : mbst := let '(ws, c) := price calc [] (first_tasks mb_sets0) in Mbst ws mb_sets0 c.

(** matchingvrp.py 290-360 *)
Fixpoint mb_loop (fuel : nat) (st : mbst) : option mbout :=
  match fuel with
  | O => None
  | S k =>
      match mb_decide W minimize_K second mm st with
      | DValueError => Some MbValueError
      | DTimeLimit => Some MbGurobiError
      | DInterrupted => Some (MbInterrupt (greedy_merge ceps seps D d C L W st))
      | DBreak => Some (MbReturn (mb_finish f st))
      | DContinue => mb_loop k st
      | DJoin i j => mb_loop k (mb_join calc i j st)
      end
  end.

(** matchingvrp.py 238-362 [mbsa_init] with the default primary criterion; [second] tells whether the
    default secondary criterion is used or none. *)
Definition mbsa_init (fuel : nat) : option mbout := mb_loop fuel mb_start.

(** The points at which Ctrl-C can arrive, each with the variables the handler finds: while the first
    savings are computed (285, [savings] is still empty), at the head of a round (293-322), after the
    savings are filtered (329), after the set is deleted (336), after the new set is stored (338), while
    its savings are computed (342). *)
Inductive place := Starting | Choosing | Filtered | Deleted | Stored | Pricing.
Definition start_points : list (place * mbst) :=
  map (fun c => (Starting, Mbst [] mb_sets0 c)) (price_caches calc (calc_caches ceps seps d C L f) [] (first_tasks mb_sets0)).
Definition join_points (i j : nat) (st : mbst) : list (place * mbst) :=
  let sv := filtered i j (mb_sav st) in
  let sets := mb_joined i j (mb_sets st) in
  [(Filtered, Mbst sv (mb_sets st) (mb_cache st)); (Deleted, Mbst sv (del_nth j (mb_sets st)) (mb_cache st)); (Stored, Mbst sv sets (mb_cache st))]
  ++ map (fun c => (Pricing, Mbst sv sets c)) (price_caches calc (calc_caches ceps seps d C L f) (mb_cache st) (new_tasks (moved i j) sets)).
Fixpoint loop_points (fuel : nat) (st : mbst) : list (place * mbst) :=
  match fuel with
  | O => []
  | S k =>
      (Choosing, st) ::
      match mb_decide W minimize_K second mm st with
      | DContinue => loop_points k st
      | DJoin i j => join_points i j st ++ loop_points k (mb_join calc i j st)
      | _ => []
      end
  end.
Definition mbsa_points (fuel : nat) : list (place * mbst) := start_points ++ loop_points fuel mb_start.

(** What the caller gets in place of a solution when the interrupt arrives there *)
Definition mbsa_interrupted (st : mbst) : greedy := greedy_merge ceps seps D d C L W st.
End Mbsa.
