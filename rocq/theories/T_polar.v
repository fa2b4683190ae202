(** * Properties C110 and C111: coordinates read by the sweeps and angular ranges of routes *)
From Coq Require Import Lia.
From Verif Require Import Spec Spec_inter Spec_savings Spec_rfcs PyBase M_util M_psavings M_sweep Spec_sweep M_polar Spec_polar P_polar P_polar2.

(** ** C110 *)

(** Comparing the angles is turning counterclockwise. *)
Theorem C110_angles :
  forall x y x' y', frac_leb (snd (cart2pol x y)) (snd (cart2pol x' y')) = true <-> not_later x y x' y'.
Proof. exact pol_leb. Qed.
Print Assumptions C110_angles.
Example C110_turning : not_later 3 (-1) 2 0 /\ not_later 2 0 1 5 /\ not_later 1 5 (-4) 3 /\ not_later (-4) 3 (-1) 0 /\ ~ not_later (-1) 0 (-3) (-1).
Proof. unfold not_later, quarter. cbn. lia. Qed.

(** Points give a sweep that visits every customer once, counterclockwise around the depot. *)
Theorem C110_points :
  forall argsort, sorts argsort -> forall pts, pts <> [] -> planar pts ->
    exists rho order, read_coordinates argsort pts = Some (rho, order) /\
      Permutation order (seq 1 (length pts - 1)) /\ length rho = length order /\
      (forall i, (i < length order)%nat ->
         nth i rho 0 = px pts (nth i order 0%nat) * px pts (nth i order 0%nat) + py pts (nth i order 0%nat) * py pts (nth i order 0%nat)) /\
      (forall i j, (i < j < length order)%nat ->
         not_later (px pts (nth i order 0%nat)) (py pts (nth i order 0%nat)) (px pts (nth j order 0%nat)) (py pts (nth j order 0%nat))).
Proof. exact read_points. Qed.
Print Assumptions C110_points.

Example C110_sorting : sorts by_insertion.
Proof. exact by_insertion_sorts. Qed.
Definition town : list (list Z) := [[10; 10]; [7; 10]; [10; 14]; [12; 11]; [8; 5]; [15; 10]].
Example C110_town : planar town /\ read_coordinates by_insertion town = Some ([29; 25; 5; 16; 9], [4; 5; 3; 2; 1]%nat).
Proof. split; [repeat constructor|vm_compute; reflexivity]. Qed.

(** The sweep heuristic called with points serves everybody within the limits. *)
Theorem C110_sweep_of_points :
  forall argsort pts ceps seps D d C L f minimize_K dir s,
    let N := length pts in
    sorts argsort -> planar pts -> (2 <= N)%nat -> solver N D f -> served_alone N D d C L ceps seps ->
    (forall i, (1 <= i < N)%nat -> 0 <= d i) ->
    (match s with SeedNode n => Nat.modulo n N <> 0%nat | SeedPositions ps => ps <> [] /\ Forall (fun p => (p < N - 1)%nat) ps | _ => True end) ->
    exists order rs,
      Permutation order (seq 1 (N - 1)) /\
      (forall i j, (i < j < length order)%nat ->
         not_later (px pts (nth i order 0%nat)) (py pts (nth i order 0%nat)) (px pts (nth j order 0%nat)) (py pts (nth j order 0%nat))) /\
      (exists fuel0, forall fuel, (fuel0 <= fuel)%nat ->
         sweep_init_at argsort pts ceps seps D d C L minimize_K f N dir s fuel = Some (SwReturns (Some (encode rs)))) /\
      serves N D d C L ceps seps rs /\
      exists ccw p, goes dir ccw /\ sweep_gives ceps seps D d C L f order ccw p rs /\
        match s with
        | ClosestToDepot => (p < N - 1)%nat /\ forall n, (1 <= n < N)%nat ->
            let c := nth p order 0%nat in px pts c * px pts c + py pts c * py pts c <= px pts n * px pts n + py pts n * py pts n
        | SmallestAngle => p = 0%nat
        | BestAlternative => (p < N - 1)%nat
        | SeedNode n => nth_error order p = Some (Nat.modulo n N)
        | SeedPositions ps => In p ps
        end.
Proof. exact sweep_at_points. Qed.
Print Assumptions C110_sweep_of_points.

Example C110_sweep_town :
  let D := fun i j => Z.abs (px town i - px town j) + Z.abs (py town i - py town j) in
  served_alone 6 D (fun _ => 1) (Some 2) (Some 30) 0 0 /\
  sweep_init_at by_insertion town 0 0 D (fun _ => 1) (Some 2) (Some 30) false (in_sweep_order D) 6 CCW ClosestToDepot 60
    = Some (SwReturns (Some [0; 3; 2; 0; 1; 4; 0; 5; 0]%nat)).
Proof.
  cbv zeta. split; [|vm_compute; reflexivity].
  intros i Hi. do 6 (destruct i as [|i]; [try lia; split; vm_compute; intros _; discriminate|]). lia.
Qed.

(** A sweep (rows of angles, distances and nodes) is used as it is, unless it has two columns. *)
Theorem C110_given_sweep_partial :
  forall argsort phi rho nodes, length phi = length rho -> length rho = length nodes -> length phi <> 2%nat ->
    read_coordinates argsort [phi; rho; nodes] = Some (rho, map Z.to_nat nodes).
Proof. exact read_sweep. Qed.
Print Assumptions C110_given_sweep_partial.
Example C110_given_case : read_coordinates by_insertion [[-1; 1; 2]; [6; 4; 9]; [7; 2; 4]] = Some ([6; 4; 9], [7; 2; 4]%nat).
Proof. reflexivity. Qed.

(** With two columns it is taken for three points, and the customers 1 and 2 are visited whatever its nodes are. *)
Theorem C110_two_customers_refuted :
  forall argsort, sorts argsort -> forall phi rho nodes, length phi = 2%nat -> length rho = 2%nat -> length nodes = 2%nat ->
    exists rho' order, read_coordinates argsort [phi; rho; nodes] = Some (rho', order) /\ Permutation order [1; 2]%nat.
Proof. exact read_two. Qed.
Print Assumptions C110_two_customers_refuted.
Example C110_two_case : read_coordinates by_insertion [[-1; 1]; [6; 4]; [7; 4]] = Some ([73; 58], [2; 1]%nat).
Proof. vm_compute. reflexivity. Qed.

(** ** C111 *)

(** The ranges of a route contain every direction that it passes, and their ends are passed. *)
Theorem C111_ranges :
  forall pi, 0 < pi -> forall phis, phis <> [] -> Forall (fun q => - pi <= q <= pi) phis ->
    exists h, get_route_phi_range pi phis = Some h /\
      (forall x, passed pi phis x -> - pi <= x <= 0 -> neg_min h <= x <= neg_max h) /\
      (forall x, passed pi phis x -> 0 <= x <= pi -> pos_min h <= x <= pos_max h) /\
      (neg_min h <= neg_max h -> passed pi phis (neg_min h) /\ passed pi phis (neg_max h)) /\
      (pos_min h <= pos_max h -> passed pi phis (pos_min h) /\ passed pi phis (pos_max h)).
Proof. exact phi_range_ok. Qed.
Print Assumptions C111_ranges.
Example C111_case : get_route_phi_range 314 [-100; -20; 40; 300; -310] = Some (mkhr (-314) 0 0 314) /\
  get_route_phi_range 314 [250; 300; -310] = Some (mkhr (-314) (-310) 250 314) /\ get_route_phi_range 314 [20; 7] = Some (mkhr 0 (-314) 7 20).
Proof. repeat split. Qed.

(** Routes that pass two directions in common, in the same half, are found to overlap. *)
Theorem C111_overlap_found :
  forall pi, 0 < pi -> forall phis1 phis2 x y, Forall (fun q => - pi <= q <= pi) phis1 -> Forall (fun q => - pi <= q <= pi) phis2 ->
    passed pi phis1 x -> passed pi phis1 y -> passed pi phis2 x -> passed pi phis2 y -> x < y -> (- pi <= x /\ y <= 0) \/ (0 <= x /\ y <= pi) ->
    ranges_overlap (get_route_phi_range pi phis1) (get_route_phi_range pi phis2) = true.
Proof. exact overlap_common. Qed.
Print Assumptions C111_overlap_found.
Example C111_overlap_case : passed 314 [10; 50] 20 /\ passed 314 [10; 50] 30 /\ passed 314 [-5; 30; 15] 20 /\ passed 314 [-5; 30; 15] 30 /\
  ranges_overlap (get_route_phi_range 314 [10; 50]) (get_route_phi_range 314 [-5; 30; 15]) = true.
Proof.
  split; [right; exists [], 10, 50, []; split; [reflexivity|cbn; lia]|]. split; [right; exists [], 10, 50, []; split; [reflexivity|cbn; lia]|].
  split; [right; exists [-5], 30, 15, []; split; [reflexivity|cbn; lia]|]. split; [left; cbn; tauto|reflexivity].
Qed.

(** Routes that overlap have three customers or more, so the sweep made of them is never taken for points. *)
Theorem C111_at_least_three :
  forall pi, 0 < pi -> forall phis1 phis2, Forall (fun q => - pi <= q <= pi) phis1 -> Forall (fun q => - pi <= q <= pi) phis2 ->
    ranges_overlap (get_route_phi_range pi phis1) (get_route_phi_range pi phis2) = true -> (3 <= length phis1 + length phis2)%nat.
Proof. exact overlap_three. Qed.
Print Assumptions C111_at_least_three.

(** A route that passes no common direction can be found to overlap: a range is one interval in each half. *)
Theorem C111_only_overlaps_refuted :
  exists pi phis1 phis2, 0 < pi /\ Forall (fun q => - pi <= q <= pi) phis1 /\ Forall (fun q => - pi <= q <= pi) phis2 /\
    ranges_overlap (get_route_phi_range pi phis1) (get_route_phi_range pi phis2) = true /\
    forall x, - pi <= x <= pi -> ~ (passed pi phis1 x /\ passed pi phis2 x).
Proof.
  exists 314, [20; -20; -300; 300], [100; 200]. split; [lia|]. split; [repeat constructor; lia|]. split; [repeat constructor; lia|].
  split; [reflexivity|]. intros x Hx (H1 & H2).
  assert (X2 : 100 <= x <= 200).
  { destruct H2 as [[<-|[<-|[]]]|(a & p & q & b & E & H)]; try lia. destruct a as [|? [|? [|]]]; try discriminate. injection E as <- <- <-. cbn in H. lia. }
  destruct H1 as [[<-|[<-|[<-|[<-|[]]]]]|(a & p & q & b & E & H)]; try lia.
  destruct a as [|? [|? [|? [|]]]]; try discriminate; injection E; intros; subst; unfold between_shorter in H; cbn in H; try lia. now destruct l.
Qed.
Print Assumptions C111_only_overlaps_refuted.
