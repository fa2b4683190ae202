(** * Model of how the sweeps read coordinates: verypy/classic_heuristics/sweep.py:54-60, 350-373 and 436-443, and of
      the angular ranges of routes: wren_holliday_sweep.py:62-105 and 380-384

    Coordinates are integers: multiples of a unit that all of them share.  Distances are replaced by their squares and
    angles by the "diamond angle", a fraction; both grow with what they replace, and they are only compared.
    Rounding is left out: two directions that differ have different angles. *)
From Verif Require Import Spec PyBase M_util M_psavings M_sweep.

(** A fraction with a positive denominator *)
Definition fraction := (Z * Z)%type.
Definition frac_leb (a b : fraction) : bool := fst a * snd b <=? fst b * snd a.

(** cart2pol, sweep.py:54-60; arctan2 is between -pi and pi, this between -2 and 2 *)
Definition cart2pol (x y : Z) : Z * fraction :=
  (x * x + y * y,
   if (x =? 0) && (y =? 0) then (0, 1)
   else let s := Z.abs x + Z.abs y in
        if 0 <=? x then (y, s) else if 0 <=? y then (2 * s - y, s) else (- (2 * s) - y, s)).

(** numpy.argsort does not tell in which order it leaves equal angles: the function is a parameter. *)
Section Polar.
Variable argsort : list fraction -> list nat.

(** get_sweep_from_polar_coordinates, lines 350-356: the rows phi, rho and node *)
Definition get_sweep_from_polar_coordinates (rhos : list Z) (phis : list fraction) : list fraction * list Z * list nat :=
  let node_order := argsort (tl phis) in
  (map (fun i => nth i (tl phis) (0, 1)) node_order,
   map (fun i => nth i (tl rhos) 0) node_order,
   map (fun i => nth i (range 1 (length rhos)) 0%nat) node_order).

(** get_sweep_from_cartesian_coordinates, lines 358-373; [None]: IndexError, ValueError *)
Definition get_sweep_from_cartesian_coordinates (pts : list (list Z)) : option (list fraction * list Z * list nat) :=
  match pts with
  | [depot_x; depot_y] :: _ =>
      let pol := map (fun p => cart2pol (nth 0 p 0 - depot_x) (nth 1 p 0 - depot_y)) pts in
      Some (get_sweep_from_polar_coordinates (map fst pol) (map snd pol))
  | _ => None
  end.

(** sweep_init, lines 436-443: how [coordinates] is read, as the rows rho and node of the sweep; [None]: an exception.
    numpy arrays are lists of rows. *)
Definition read_coordinates (coordinates : list (list Z)) : option (list Z * list nat) :=
  match coordinates with
  | [] => None
  | row0 :: _ =>
      if Nat.eqb (length row0) 2 then
        match get_sweep_from_cartesian_coordinates coordinates with
        | Some (_, rho, order) => Some (rho, order)
        | None => None
        end
      else match coordinates with
           | [phi; rho; nodes] =>
               if Nat.eqb (length phi) (length rho) && Nat.eqb (length rho) (length nodes)
               then Some (rho, map Z.to_nat nodes) else None
           | _ => None
           end
  end.

(** sweep_init with its first parameter *)
Definition sweep_init_at (coordinates : list (list Z)) ceps seps D d C L minimize_K (f : routing) (N : nat) dir s (fuel : nat) : option sw_result :=
  match read_coordinates coordinates with
  | None => Some SwRaises
  | Some (rho, order) => sweep_init ceps seps D d C L minimize_K f order N rho dir s fuel
  end.
End Polar.

(** ** _get_route_phi_range, wren_holliday_sweep.py:62-105; angles are integers between -pi and pi *)
Record half_ranges := mkhr { neg_min : Z; neg_max : Z; pos_min : Z; pos_max : Z }.
(** The body of the loop, lines 75-103; [sign] is phi/abs(phi) of the last angle other than 0 *)
Definition phi_step (pi : Z) (st : half_ranges * option Z * Z) (phi : Z) : half_ranges * option Z * Z :=
  let '(h, sign, prev_phi) := st in
  let new_sign := if phi =? 0 then sign else Some (Z.sgn phi) in
  let crosses := match sign, new_sign with Some a, Some b => negb (a =? b) | _, _ => false end in
  let h := if crosses
           then if pi <? Z.abs (phi - prev_phi)
                then mkhr (- pi) (neg_max h) (pos_min h) pi
                else mkhr (neg_min h) 0 0 (pos_max h)
           else h in
  let h := if phi <=? 0
           then mkhr (if neg_min h =? - pi then neg_min h else Z.min (neg_min h) phi)
                     (if neg_max h =? 0 then neg_max h else Z.max (neg_max h) phi) (pos_min h) (pos_max h)
           else h in
  let h := if 0 <=? phi
           then mkhr (neg_min h) (neg_max h)
                     (if pos_min h =? 0 then pos_min h else Z.min (pos_min h) phi)
                     (if pos_max h =? pi then pos_max h else Z.max (pos_max h) phi)
           else h in
  (h, (if phi =? 0 then sign else new_sign), phi).
Definition get_route_phi_range (pi : Z) (route_phis : list Z) : option half_ranges :=
  match route_phis with
  | [] => None
  | p :: _ => Some (fst (fst (fold_left (phi_step pi) route_phis (mkhr 0 (- pi) pi 0, None, p))))
  end.

(** Lines 377-384: whether two routes overlap *)
Definition ranges_overlap (r1 r2 : option half_ranges) : bool :=
  match r1, r2 with
  | Some a, Some b => ((neg_min a <? neg_max b) && (neg_min b <? neg_max a)) || ((pos_min a <? pos_max b) && (pos_min b <? pos_max a))
  | _, _ => false
  end.
