(** * Properties C39, C44: the savings variants built on parallel savings *)
From Verif Require Import Spec Spec_ls Spec_inter Spec_savings Spec_savfam Spec_driver PyBase M_util M_driver M_psavings M_savfam P_psavings2 P_savfam P_savfam2 P_savfam3 T_psavings.

(** ** C39: a complete feasible solution for every instance *)

Theorem C39_parallel :
  forall ceps seps N D d C L minimize_K savings,
    (2 <= N)%nat -> symmetric D -> served_alone N D d C L ceps seps -> valid_pairs N savings ->
    exists rs, parallel_savings_init ceps seps N D d C L minimize_K savings = Some (Some (encode rs)) /\
      serves N D d C L ceps seps rs.
Proof. exact parallel_serves. Qed.
Print Assumptions C39_parallel.

Theorem C39_gaskell :
  forall ceps seps N D d C L minimize_K m,
    (2 <= N)%nat -> symmetric D -> served_alone N D d C L ceps seps ->
    exists rs, gaskell_savings_init ceps seps N D d C L minimize_K m = Some (Some (encode rs)) /\
      serves N D d C L ceps seps rs /\
      (minimize_K = false -> routes_cost D rs <= routes_cost D (star_routes N)).
Proof. exact gaskell_serves. Qed.
Print Assumptions C39_gaskell.

Theorem C39_paessens :
  forall ceps seps N D d C L minimize_K s do_3opt,
    (2 <= N)%nat -> symmetric D -> served_alone N D d C L ceps seps ->
    D 0%nat 0%nat = 0 -> d 0%nat = 0 -> 0 <= seps -> base_parameters s <> [] ->
    exists rs fuel0,
      (forall fuel, (fuel0 <= fuel)%nat ->
         paessens_savings_init seps ceps N D d C L minimize_K s do_3opt fuel = Some (Some (encode rs))) /\
      serves N D d C L ceps seps rs /\
      (minimize_K = false -> routes_cost D rs <= routes_cost D (star_routes N)) /\
      (do_3opt = true -> cannot_improve seps D d C L 1 rs).
Proof. exact paessens_serves. Qed.
Print Assumptions C39_paessens.

(** At least two customers, and a positive number of suppression rounds where it is given. *)
Theorem C39_suppression :
  forall ceps seps N D d C L minimize_K Lprime,
    (3 <= N)%nat -> symmetric D -> served_alone N D d C L ceps seps -> Lprime <> Some 0%nat ->
    exists rs, suppression_savings_init ceps seps N D d C L minimize_K Lprime = Some (Some (encode rs)) /\
      serves N D d C L ceps seps rs /\
      (minimize_K = false -> routes_cost D rs <= routes_cost D (star_routes N)).
Proof. exact suppression_serves. Qed.
Print Assumptions C39_suppression.

(** With one customer there is no pair to suppress, no run is made and None is returned. *)
Theorem C39_suppression_one_customer_refuted :
  forall ceps seps D d C L minimize_K Lprime,
    suppression_savings_init ceps seps 2 D d C L minimize_K Lprime = Some None.
Proof. exact suppression_one. Qed.
Print Assumptions C39_suppression_one_customer_refuted.

Example C39_gaskell_run :
  gaskell_savings_init 0 0 6 ex_sD (fun _ => 1) (Some 3) (Some 40) false Both
  = Some (Some (encode [[1; 2]; [3; 4; 5]]%nat)).
Proof. vm_compute. reflexivity. Qed.
Example C39_suppression_run :
  suppression_savings_init 0 0 6 ex_sD (fun _ => 1) (Some 3) (Some 40) false None
  = Some (Some (encode [[1; 2]; [3; 4; 5]]%nat)).
Proof. vm_compute. reflexivity. Qed.
Example C39_paessens_run :
  paessens_savings_init 0 0 6 ex_sD (fun _ => 1) (Some 3) (Some 40) false M4 true 20
  = Some (Some (encode [[1; 2]; [3; 4; 5]]%nat)).
Proof. vm_compute. reflexivity. Qed.
Example C39_base_parameters : base_parameters M1 <> [] /\ length (base_parameters M1) = 143%nat /\ base_parameters M4 <> [].
Proof. split; [discriminate|]. split; [reflexivity|discriminate]. Qed.

(** ** C44: no run made on the way beats the result *)

(** Gaskell: "lambda" and "pi" are parallel savings on the pairs ranked by these criteria, and "both"
    returns the better of the two. *)
Theorem C44_gaskell :
  forall ceps seps N D d C L minimize_K,
    (2 <= N)%nat -> symmetric D -> served_alone N D d C L ceps seps ->
    exists lam pi rl rp rs,
      ranking N D (lambda_value N D) lam /\ ranking N D (pi_value D) pi /\
      parallel_savings_init ceps seps N D d C L minimize_K lam = Some (Some (encode rl)) /\
      parallel_savings_init ceps seps N D d C L minimize_K pi = Some (Some (encode rp)) /\
      Forall customers_only rl /\ Forall customers_only rp /\
      gaskell_savings_init ceps seps N D d C L minimize_K Lambda = Some (Some (encode rl)) /\
      gaskell_savings_init ceps seps N D d C L minimize_K Pi = Some (Some (encode rp)) /\
      gaskell_savings_init ceps seps N D d C L minimize_K Both = Some (Some (encode rs)) /\
      (rs = rl \/ rs = rp) /\ not_beaten minimize_K D rs rl /\ not_beaten minimize_K D rs rp.
Proof. exact gaskell_exact. Qed.
Print Assumptions C44_gaskell.

(** Paessens with one parameter pair: parallel savings on the ranking by the parametrised saving, with
    3-opt after it where asked for. *)
Theorem C44_paessens_one_pair :
  forall ceps seps N D d C L minimize_K,
    (2 <= N)%nat -> symmetric D -> served_alone N D d C L ceps seps ->
    D 0%nat 0%nat = 0 -> d 0%nat = 0 -> 0 <= seps ->
    forall g f, exists l rs,
      ranking N D (paessens_value D g f) l /\
      parallel_savings_init ceps seps N D d C L minimize_K l = Some (Some (encode rs)) /\ Forall customers_only rs /\
      (forall fuel, paessens_savings_init seps ceps N D d C L minimize_K (Given [(g, f)]) false fuel = Some (Some (encode rs))) /\
      exists rs' fuel0, forall fuel, (fuel0 <= fuel)%nat ->
        do_local_search seps (library seps D d C L) [1%nat] (encode rs) D d false IterAll None fuel = Some (encode rs') /\
        paessens_savings_init seps ceps N D d C L minimize_K (Given [(g, f)]) true fuel = Some (Some (encode rs')).
Proof. exact paessens_plain. Qed.
Print Assumptions C44_paessens_one_pair.

(** A list of parameter pairs: the result is the run of one of them and no other run beats it. *)
Theorem C44_paessens_given :
  forall ceps seps N D d C L minimize_K do_3opt ps,
    (2 <= N)%nat -> symmetric D -> served_alone N D d C L ceps seps ->
    D 0%nat 0%nat = 0 -> d 0%nat = 0 -> 0 <= seps -> ps <> [] ->
    exists rs fuel0, Forall customers_only rs /\
      (forall fuel, (fuel0 <= fuel)%nat ->
         paessens_savings_init seps ceps N D d C L minimize_K (Given ps) do_3opt fuel = Some (Some (encode rs))) /\
      (exists gf, In gf ps /\ forall fuel, (fuel0 <= fuel)%nat ->
         paessens_savings_init seps ceps N D d C L minimize_K (Given [gf]) do_3opt fuel = Some (Some (encode rs))) /\
      forall gf, In gf ps -> exists rs', Forall customers_only rs' /\
        (forall fuel, (fuel0 <= fuel)%nat ->
           paessens_savings_init seps ceps N D d C L minimize_K (Given [gf]) do_3opt fuel = Some (Some (encode rs'))) /\
        not_beaten minimize_K D rs rs'.
Proof. exact paessens_given_best. Qed.
Print Assumptions C44_paessens_given.

(** M1: all g = 0.8, 0.9, ..., 2.0 with all f = 0.0, 0.1, ..., 1.0. *)
Theorem C44_paessens_M1 :
  forall ceps seps N D d C L minimize_K do_3opt,
    (2 <= N)%nat -> symmetric D -> served_alone N D d C L ceps seps ->
    D 0%nat 0%nat = 0 -> d 0%nat = 0 -> 0 <= seps ->
    exists rs fuel0, Forall customers_only rs /\
      (forall fuel, (fuel0 <= fuel)%nat ->
         paessens_savings_init seps ceps N D d C L minimize_K M1 do_3opt fuel = Some (Some (encode rs))) /\
      (exists g f, (8 <= g <= 20 /\ 0 <= f <= 10) /\ forall fuel, (fuel0 <= fuel)%nat ->
         paessens_savings_init seps ceps N D d C L minimize_K (Given [(g, f)]) do_3opt fuel = Some (Some (encode rs))) /\
      forall g f, 8 <= g <= 20 -> 0 <= f <= 10 -> exists rs', Forall customers_only rs' /\
        (forall fuel, (fuel0 <= fuel)%nat ->
           paessens_savings_init seps ceps N D d C L minimize_K (Given [(g, f)]) do_3opt fuel = Some (Some (encode rs'))) /\
        not_beaten minimize_K D rs rs'.
Proof. exact paessens_m1_best. Qed.
Print Assumptions C44_paessens_M1.

(** M4: the four starting pairs, and the four pairs next to the best of them. *)
Theorem C44_paessens_M4 :
  forall ceps seps N D d C L minimize_K do_3opt,
    (2 <= N)%nat -> symmetric D -> served_alone N D d C L ceps seps ->
    D 0%nat 0%nat = 0 -> d 0%nat = 0 -> 0 <= seps ->
    exists rs g f rb fuel0, Forall customers_only rs /\ Forall customers_only rb /\ m4_start g f /\
      (forall fuel, (fuel0 <= fuel)%nat ->
         paessens_savings_init seps ceps N D d C L minimize_K M4 do_3opt fuel = Some (Some (encode rs)) /\
         paessens_savings_init seps ceps N D d C L minimize_K (Given [(g, f)]) do_3opt fuel = Some (Some (encode rb))) /\
      (exists g' f', (m4_start g' f' \/ next_to g f g' f') /\ forall fuel, (fuel0 <= fuel)%nat ->
         paessens_savings_init seps ceps N D d C L minimize_K (Given [(g', f')]) do_3opt fuel = Some (Some (encode rs))) /\
      (forall g' f', m4_start g' f' \/ next_to g f g' f' -> exists rs', Forall customers_only rs' /\
        (forall fuel, (fuel0 <= fuel)%nat ->
           paessens_savings_init seps ceps N D d C L minimize_K (Given [(g', f')]) do_3opt fuel = Some (Some (encode rs'))) /\
        not_beaten minimize_K D rs rs' /\ (m4_start g' f' -> not_beaten minimize_K D rb rs')).
Proof. exact paessens_m4_best. Qed.
Print Assumptions C44_paessens_M4.

(** Suppression: in every round the pairs that came first in earlier rounds count for nothing; the
    result is one of the rounds and no other round beats it. *)
Theorem C44_suppression_rounds :
  forall ceps seps N D d C L minimize_K Lprime,
    (3 <= N)%nat -> symmetric D -> served_alone N D d C L ceps seps -> Lprime <> Some 0%nat ->
    exists lists rs,
      length lists = Nat.min (match Lprime with None => (N - 1) / 7 + 5 | Some l => l end) ((N - 1) * (N - 2) / 2) /\
      (forall k l, nth_error lists k = Some l -> ranking N D (suppressed_value D (firstn k lists)) l) /\
      suppression_savings_init ceps seps N D d C L minimize_K Lprime = Some (Some (encode rs)) /\ Forall customers_only rs /\
      (exists l, In l lists /\ parallel_savings_init ceps seps N D d C L minimize_K l = Some (Some (encode rs))) /\
      forall l, In l lists -> exists rs', parallel_savings_init ceps seps N D d C L minimize_K l = Some (Some (encode rs')) /\
        Forall customers_only rs' /\ not_beaten minimize_K D rs rs'.
Proof. exact suppression_rounds. Qed.
Print Assumptions C44_suppression_rounds.

(** More suppression rounds never give a worse solution. *)
Theorem C44_suppression :
  forall ceps seps N D d C L minimize_K l1 l2,
    (3 <= N)%nat -> symmetric D -> served_alone N D d C L ceps seps -> (1 <= l1 <= l2)%nat ->
    exists rs1 rs2,
      suppression_savings_init ceps seps N D d C L minimize_K (Some l1) = Some (Some (encode rs1)) /\
      suppression_savings_init ceps seps N D d C L minimize_K (Some l2) = Some (Some (encode rs2)) /\
      Forall customers_only rs1 /\ Forall customers_only rs2 /\ not_beaten minimize_K D rs2 rs1.
Proof. exact suppression_best. Qed.
Print Assumptions C44_suppression.

(** A case where the two functions of Gaskell differ: the better one is returned. *)
Definition ex_gD : matrix := fun i j =>
  match Nat.min i j, Nat.max i j with
  | 0%nat, 1%nat => 4 | 0%nat, 2%nat => 6 | 0%nat, 3%nat => 9 | 0%nat, 4%nat => 10
  | 1%nat, 2%nat => 3 | 1%nat, 3%nat => 8 | 1%nat, 4%nat => 12 | 2%nat, 3%nat => 5
  | 2%nat, 4%nat => 8 | 3%nat, 4%nat => 7 | _, _ => 0
  end.
Example C44_symmetric : symmetric ex_gD.
Proof. intros i j. unfold ex_gD. now rewrite Nat.min_comm, Nat.max_comm. Qed.
Example C44_runs_differ :
  gaskell_savings_init 0 0 5 ex_gD (fun _ => 1) (Some 3) None false Lambda = Some (Some (encode [[1; 2; 3]; [4]]%nat)) /\
  gaskell_savings_init 0 0 5 ex_gD (fun _ => 1) (Some 3) None false Pi = Some (Some (encode [[1]; [2; 3; 4]]%nat)) /\
  gaskell_savings_init 0 0 5 ex_gD (fun _ => 1) (Some 3) None false Both = Some (Some (encode [[1]; [2; 3; 4]]%nat)).
Proof. split; [vm_compute; reflexivity|]. split; vm_compute; reflexivity. Qed.
