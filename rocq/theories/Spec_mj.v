(** * Specification of the strain criteria of Mole and Jameson *)
From Verif Require Import Spec Spec_inter M_cins M_mj.

(** [cfg] = (4 lambda, 4 mu, how routes are begun) is tried for the criterion [c]. *)
Definition tries_one (c : criterion) (cfg : Z * Z * init_method) : Prop :=
  match c with
  | ProximityRanking => cfg = (0, 0, Farthest)                 (* lambda = mu = 0 *)
  | MinStrain => cfg = (0, 4, Farthest)                        (* lambda = 0, mu = 1 *)
  | ClarkeWright => cfg = (8, 4, Strain)                       (* lambda = 2, mu = 1 *)
  | Gaskell => exists mu, 1 <= mu <= 4 /\ cfg = (mu + 4, mu, Strain)   (* mu = 1/4 .. 1, lambda = mu + 1 *)
  | AugmentedMinStrain =>                                      (* mu = 1, lambda = 0, 1/2, .. 2 *)
      exists k, 0 <= k <= 4 /\ cfg = (2 * k, 4, if k =? 4 then Strain else Farthest)
  | AllCriteria => False
  end.
Definition tries (c : criterion) (cfg : Z * Z * init_method) : Prop :=
  tries_one c cfg \/ (c = AllCriteria /\ exists c', tries_one c' cfg).

(** The solution that the run of one criterion gives, if any. *)
Definition given (e : mj_event) : option (list nat) :=
  match e with Finished s => Some s | WithSolution s => Some s | Bare s => s end.
Definition interrupts (e : mj_event) : Prop := exists s, e = WithSolution s.
(** It is a solution. *)
Definition proper (e : mj_event) : Prop := forall s, given e = Some s -> exists rs, s = encode rs /\ Forall customers_only rs.
