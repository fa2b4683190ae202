(** * Model of the distance matrices and the random problems of verypy/cvrp_io.py

    Coordinates and distances are integer multiples of 1/q (every decimal or binary fraction is one
    for some q); square roots are exact and only their rounded values are used. *)
From Verif Require Import Spec PyBase M_text.

Definition point : Type := Z * Z.

(** The square of the Euclidean distance, in units of 1/q^2 *)
Definition dist2 (a b : point) : Z :=
  (fst a - fst b) * (fst a - fst b) + (snd a - snd b) * (snd a - snd b).

(** floor(sqrt(n)/u) *)
Definition floor_root (u n : Z) : Z := Z.sqrt (n / (u * u)).
(** np.floor, np.ceil and np.round (half to even) of sqrt(n)/u, lines 88-93 *)
Definition ceil_root (u n : Z) : Z :=
  let k := floor_root u n in if k * k * (u * u) =? n then k else k + 1.
Definition round_root (u n : Z) : Z :=
  let k := floor_root u n in
  let half := (2 * k + 1) * (2 * k + 1) * (u * u) in
  if 4 * n <? half then k
  else if half <? 4 * n then k + 1
  else if Z.even k then k else k + 1.

(** _att, lines 73-78: r = sqrt(dx**2+dy**2)/10.0, t = int(r), t+1 if t < r *)
Definition att (q : Z) (a b : point) : Z :=
  let t := floor_root (10 * q) (dist2 a b) in
  if t * t * (10 * q * (10 * q)) <? dist2 a b then t + 1 else t.

(** The metrics of calculate_D, lines 81-101, in units of 1/q.  [None]: ValueError.  [other] stands
    for EXACT_2D (irrational) and GEO (_geo, lines 58-71, trigonometry). *)
Definition metric (other : text -> point -> point -> Z) (q : Z) (t : option text) : option (point -> point -> Z) :=
  match t with
  | None => None
  | Some t =>
      if text_eqb t (str "MAX_2D") then Some (fun a b => Z.max (Z.abs (fst a - fst b)) (Z.abs (snd a - snd b)))
      else if text_eqb t (str "MAN_2D") then Some (fun a b => Z.abs (fst a - fst b) + Z.abs (snd a - snd b))
      else if text_eqb t (str "CEIL_2D") then Some (fun a b => q * ceil_root q (dist2 a b))
      else if text_eqb t (str "FLOOR_2D") then Some (fun a b => q * floor_root q (dist2 a b))
      else if text_eqb t (str "EUC_2D") then Some (fun a b => q * round_root q (dist2 a b))
      else if text_eqb t (str "ATT") then Some (fun a b => q * att q a b)
      else if text_eqb t (str "GEO") || text_eqb t (str "EXACT_2D") then Some (other t)
      else None
  end.

(** calculate_D without opts, line 103: pdist computes each pair once, squareform fills both
    halves and puts 0 on the diagonal; rounding 0 gives 0. *)
Definition calculate_D other q (pts : list point) (t : option text) : option (nat * matrix) :=
  option_map (fun f =>
    (length pts, fun i j =>
       if Nat.eqb i j then 0
       else f (nth (Nat.min i j) pts (0, 0)) (nth (Nat.max i j) pts (0, 0)))) (metric other q t).
(** With opts, line 105: a matrix with a row for each of [pts] and a column for each of [opts] *)
Definition calculate_D2 other q (pts opts : list point) (t : option text) : option (nat -> nat -> Z) :=
  option_map (fun f => fun i j => f (nth i pts (0, 0)) (nth j opts (0, 0))) (metric other q t).

(** generate_CVRP, lines 448-478.  A customer is drawn as its position r*cos(alpha), r*sin(alpha)
    and a value of random.gauss(muC, sdC), in units of 1/q. *)
Definition drawn_demand (q C g : Z) : Z := Z.min C (Z.max q g).
Definition generate_CVRP other q (C : Z) (draws : list (point * Z)) : option (nat * list point * list Z * (nat * matrix) * Z) :=
  let points := (0, 0) :: map fst draws in
  let demands := 0 :: map (fun x => drawn_demand q C (snd x)) draws in
  option_map (fun D => (length draws, points, demands, D, C)) (calculate_D other q points (Some (str "EUC_2D"))).

(** The random problem of the command line interface, shared_cli.py:276-283: capacity 100, demands
    truncated to integers, no route length limit. *)
Definition cli_random other q (draws : list (point * Z)) : option (nat * matrix * (nat -> Z) * limit * limit) :=
  option_map (fun p => let '(N, _, ds, (n, D), C) := p in
    (n, D, fun i => nth i (map (fun x => Z.quot x q) ds) 0, Some (C / q), None))
    (generate_CVRP other q (100 * q) draws).
