(** * Specification for changes of the unit of measurement *)
From Verif Require Import Spec.

(** The same distances, demands and limits in a unit [k] times smaller. *)
Definition finer_matrix (k : Z) (D : matrix) : matrix := fun i j => k * D i j.
Definition finer_demands (k : Z) (d : demands) : demands := fun i => k * d i.
Definition finer_limit (k : Z) (C : limit) : limit := option_map (Z.mul k) C.
