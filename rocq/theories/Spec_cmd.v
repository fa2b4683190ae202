(** * Specification of the command lines of the heuristics *)
From Verif Require Import Spec M_text M_cli2 M_cmd.
Local Open Scope Z_scope.

(** A decimal number and its value *)
Definition number (s : text) : Prop := s <> [] /\ forall c, In c s -> exists k, (k <= 9)%nat /\ c = ascii_of_nat (48 + k).
Inductive value : text -> Z -> Prop :=
| value_none : value [] 0
| value_digit : forall s n k, (k <= 9)%nat -> value s n -> value (s ++ [ascii_of_nat (48 + k)]) (10 * n + Z.of_nat k).

(** The options of the usage text and how they are written *)
Inductive given := Verbosity (n : text) | Runs (n : text) | Single | Timing | LogFile (f : text) | Cost (t : text) | Vehicles (t : text).
Definition written (g : given) : list text :=
  match g with
  | Verbosity n => [str "-v"; n]
  | Runs n => [str "-n"; n]
  | Single => [str "-1"]
  | Timing => [str "-t"]
  | LogFile f => [str "-l"; f]
  | Cost t => [str "-b"; t]
  | Vehicles t => [str "-b"; t]
  end.
Definition option_names : list text := [str "-v"; str "-n"; str "-1"; str "-t"; str "-l"; str "-b"].
(** The values are as the usage text says: natural numbers, file names that are not options, the names of targets in
    any case. *)
Definition proper (g : given) : Prop :=
  match g with
  | Verbosity n | Runs n => number n
  | LogFile f => ~ In f option_names
  | Cost t => lower t = str "cost" \/ lower t = str "c"
  | Vehicles t => lower t = str "vehicles" \/ lower t = str "k"
  | Single | Timing => True
  end.

(** The last of the options that say something about a setting, [None] if none does *)
Fixpoint last_said {A} (says : given -> option A) (l : list given) : option A :=
  match l with
  | [] => None
  | g :: t => match last_said says t with Some a => Some a | None => says g end
  end.
Definition says_verbosity g := match g with Verbosity n => Some n | _ => None end.
Definition says_runs g := match g with Runs n => Some n | _ => None end.
Definition says_log g := match g with LogFile f => Some f | _ => None end.
Definition says_vehicles g := match g with Cost _ => Some false | Vehicles _ => Some true | _ => None end.

(** The settings are those given last, and the defaults for those not given. *)
Definition as_given (gs : list given) (o : settings) : Prop :=
  match last_said says_verbosity gs with Some n => value n (op_verbosity o) | None => op_verbosity o = 3 end /\
  match last_said says_runs gs with Some n => value n (op_best_of_n o) | None => op_best_of_n o = 1 end /\
  (op_single o = true <-> In Single gs) /\
  (op_time o = true <-> In Timing gs) /\
  op_log o = last_said says_log gs /\
  op_minimize_K o = match last_said says_vehicles gs with Some b => b | None => false end.

(** The command line of a program: its name, options and the problem *)
Definition command_line (argv : list text) (gs : list given) (problem : text) : Prop :=
  exists prog, ~ In prog option_names /\ Forall proper gs /\ argv = prog :: flat_map written gs ++ [problem].
(** No help is asked for: neither the program, a log file nor the problem is called like that. *)
Definition no_help (argv : list text) : Prop := ~ In (str "-h") argv /\ ~ In (str "--help") argv.
