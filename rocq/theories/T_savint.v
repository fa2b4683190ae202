(** * C105: interrupting the savings variants that run parallel savings repeatedly

    The call should raise KeyboardInterrupt with the best solution so far.  It does when the
    interrupt arrives inside the try block of parallel savings, outside the window in which
    customers are served twice (C26).  Any other interrupt is lost. *)
From Verif Require Import Spec Spec_inter Spec_ls Spec_savings PyBase M_util M_routedata M_driver M_psavings M_savfam M_savint Spec_savint
  P_savint2 P_savint3 T_psavings.

(** Run [k] is interrupted at point [j]. *)
Theorem C105_gaskell_partial :
  forall ceps seps N D d C L minimize_K m stops k j f pts p,
    (2 <= N)%nat -> symmetric D -> served_alone N D d C L ceps seps ->
    none_caught stops k -> stops k = Some (In_savings j) ->
    nth_error (gaskell_functions N D m) k = Some f ->
    ps_points ceps seps N D d C L minimize_K f = Some pts -> nth_error pts j = Some p -> fst p <> Extended ->
    exists rs,
      gaskell_stopped ceps seps N D d C L minimize_K m stops = Some (Interrupted (Some (encode rs))) /\
      serves N D d C L ceps seps rs /\
      (minimize_K = false -> routes_cost D rs <= routes_cost D (star_routes N)) /\
      (exists rs', interrupted_sol p = Some (encode rs') /\ not_beaten minimize_K D rs rs') /\
      forall t f', (t < k)%nat -> stops t = None -> nth_error (gaskell_functions N D m) t = Some f' ->
        exists rs', parallel_savings_init ceps seps N D d C L minimize_K f' = Some (Some (encode rs')) /\
          serves N D d C L ceps seps rs' /\ not_beaten minimize_K D rs rs'.
Proof.
  intros ceps seps N D d C L mk m stops k j f pts p HN Hs Ha. now apply gaskell_interrupted.
Qed.
Print Assumptions C105_gaskell_partial.

Example C105_gaskell_run :
  gaskell_stopped 0 0 6 ex_sD (fun _ => 1) (Some 3) (Some 40) false Both
    (fun t => if Nat.eqb t 1 then Some (In_savings 3) else None)
  = Some (Interrupted (Some (encode [[1; 2]; [3; 4; 5]]%nat))).
Proof. vm_compute. reflexivity. Qed.
Example C105_gaskell_point :
  exists pts p, ps_points 0 0 6 ex_sD (fun _ => 1) (Some 3) (Some 40) false (gaskell_pi 6 ex_sD) = Some pts /\
    nth_error pts 3 = Some p /\ fst p <> Extended.
Proof. eexists. eexists. split; [vm_compute; reflexivity|]. split; [vm_compute; reflexivity|]. discriminate. Qed.

Theorem C105_paessens_partial :
  forall ceps seps N D d C L minimize_K do_3opt s stops k j gf pts p,
    (2 <= N)%nat -> symmetric D -> served_alone N D d C L ceps seps ->
    D 0%nat 0%nat = 0 -> d 0%nat = 0 -> 0 <= seps ->
    none_caught stops k -> stops k = Some (In_savings j) -> nth_error (base_parameters s) k = Some gf ->
    ps_points ceps seps N D d C L minimize_K (paessens_list N D (fst gf) (snd gf)) = Some pts ->
    nth_error pts j = Some p -> fst p <> Extended ->
    exists rs fuel0,
      serves N D d C L ceps seps rs /\
      (minimize_K = false -> routes_cost D rs <= routes_cost D (star_routes N)) /\
      (exists rs', interrupted_sol p = Some (encode rs') /\ not_beaten minimize_K D rs rs') /\
      forall fuel, (fuel0 <= fuel)%nat ->
        paessens_stopped seps ceps N D d C L minimize_K s do_3opt fuel stops = Some (Interrupted (Some (encode rs))) /\
        forall t gf', (t < k)%nat -> stops t = None -> nth_error (base_parameters s) t = Some gf' ->
          exists rs', paessens_run seps ceps N D d C L minimize_K do_3opt fuel gf' = Some (encode rs') /\
            serves N D d C L ceps seps rs' /\ not_beaten minimize_K D rs rs'.
Proof.
  intros ceps seps N D d C L mk do3 s stops k j gf pts p HN Hs Ha H0 H1 H2. now apply paessens_interrupted.
Qed.
Print Assumptions C105_paessens_partial.

Example C105_paessens_run :
  paessens_stopped 0 0 6 ex_sD (fun i => if Nat.eqb i 0 then 0 else 1) (Some 3) (Some 40) false (Given [(10, 1); (14, 5)]) true 50
    (fun t => if Nat.eqb t 1 then Some (In_savings 3) else None)
  = Some (Interrupted (Some (encode [[1; 2]; [3; 4; 5]]%nat))).
Proof. vm_compute. reflexivity. Qed.

(** One of the four runs that strategy "M4" adds is interrupted. *)
Theorem C105_paessens_fine_tuning_partial :
  forall ceps seps N D d C L minimize_K do_3opt stops i j,
    (2 <= N)%nat -> symmetric D -> served_alone N D d C L ceps seps ->
    D 0%nat 0%nat = 0 -> d 0%nat = 0 -> 0 <= seps ->
    none_caught stops (4 + i) -> (i < 4)%nat -> stops (4 + i)%nat = Some (In_savings j) ->
    (forall gf pts, In gf (flat_map m4_finetune m4_parameters) ->
       ps_points ceps seps N D d C L minimize_K (paessens_list N D (fst gf) (snd gf)) = Some pts ->
       exists p, nth_error pts j = Some p /\ fst p <> Extended) ->
    exists rs fuel0,
      serves N D d C L ceps seps rs /\
      (minimize_K = false -> routes_cost D rs <= routes_cost D (star_routes N)) /\
      forall fuel, (fuel0 <= fuel)%nat ->
        paessens_stopped seps ceps N D d C L minimize_K M4 do_3opt fuel stops = Some (Interrupted (Some (encode rs))) /\
        forall t gf', stops t = None -> nth_error m4_parameters t = Some gf' ->
          exists rs', paessens_run seps ceps N D d C L minimize_K do_3opt fuel gf' = Some (encode rs') /\
            serves N D d C L ceps seps rs' /\ not_beaten minimize_K D rs rs'.
Proof.
  intros ceps seps N D d C L mk do3 stops i j HN Hs Ha H0 H1 H2. now apply m4_interrupted.
Qed.
Print Assumptions C105_paessens_fine_tuning_partial.

Example C105_fine_tuning_points :
  forall gf pts, In gf (flat_map m4_finetune m4_parameters) ->
    ps_points 0 0 6 ex_sD (fun i => if Nat.eqb i 0 then 0 else 1) (Some 3) (Some 40) false (paessens_list 6 ex_sD (fst gf) (snd gf)) = Some pts ->
    exists p, nth_error pts 3 = Some p /\ fst p <> Extended.
Proof.
  intros gf pts H E. cbn [flat_map m4_finetune m4_parameters app In] in H.
  repeat (destruct H as [<-|H]; [vm_compute in E; injection E as <-; eexists; split; [reflexivity|discriminate]|]). destruct H.
Qed.

(** The runs before run [k] are those of a call with Lprime = [k]. *)
Theorem C105_suppression_partial :
  forall ceps seps N D d C L minimize_K Lprime stops k j savings pts p,
    (2 <= N)%nat -> symmetric D -> served_alone N D d C L ceps seps ->
    (k < suppression_count N Lprime)%nat -> (forall t, (t < k)%nat -> stops t = None) -> stops k = Some (In_savings j) ->
    kth_savings N D k [] [] = Some savings ->
    ps_points ceps seps N D d C L minimize_K savings = Some pts -> nth_error pts j = Some p -> fst p <> Extended ->
    exists rs,
      suppression_stopped ceps seps N D d C L minimize_K Lprime stops = Some (Interrupted (Some (encode rs))) /\
      serves N D d C L ceps seps rs /\
      (minimize_K = false -> routes_cost D rs <= routes_cost D (star_routes N)) /\
      (exists rs', interrupted_sol p = Some (encode rs') /\ not_beaten minimize_K D rs rs') /\
      ((0 < k)%nat -> exists rs',
         suppression_savings_init ceps seps N D d C L minimize_K (Some k) = Some (Some (encode rs')) /\
         serves N D d C L ceps seps rs' /\ not_beaten minimize_K D rs rs').
Proof.
  intros ceps seps N D d C L mk Lp stops k j savings pts p HN Hs Ha. now apply suppression_interrupted.
Qed.
Print Assumptions C105_suppression_partial.

Example C105_suppression_run :
  suppression_stopped 0 0 6 ex_sD (fun _ => 1) (Some 3) (Some 40) false None
    (fun t => if Nat.eqb t 2 then Some (In_savings 3) else None)
  = Some (Interrupted (Some (encode [[1; 2]; [3; 4; 5]]%nat))).
Proof. vm_compute. reflexivity. Qed.
Example C105_suppression_point :
  exists savings pts p, kth_savings 6 ex_sD 2 [] [] = Some savings /\
    ps_points 0 0 6 ex_sD (fun _ => 1) (Some 3) (Some 40) false savings = Some pts /\
    nth_error pts 3 = Some p /\ fst p <> Extended.
Proof. do 3 eexists. split; [vm_compute; reflexivity|]. split; [vm_compute; reflexivity|]. split; [vm_compute; reflexivity|]. discriminate. Qed.

(** Without interrupts the calls return what the models of C39 return. *)
Theorem C105_without_interrupts :
  forall ceps seps N D d C L minimize_K,
    (2 <= N)%nat -> symmetric D -> served_alone N D d C L ceps seps ->
    (forall m, gaskell_stopped ceps seps N D d C L minimize_K m (fun _ => None)
               = option_map Returns (gaskell_savings_init ceps seps N D d C L minimize_K m)) /\
    (forall Lprime, suppression_stopped ceps seps N D d C L minimize_K Lprime (fun _ => None)
                    = option_map Returns (suppression_savings_init ceps seps N D d C L minimize_K Lprime)) /\
    (D 0%nat 0%nat = 0 -> d 0%nat = 0 -> 0 <= seps -> forall s do_3opt, base_parameters s <> [] ->
       exists fuel0, forall fuel, (fuel0 <= fuel)%nat ->
         paessens_stopped seps ceps N D d C L minimize_K s do_3opt fuel (fun _ => None)
         = option_map Returns (paessens_savings_init seps ceps N D d C L minimize_K s do_3opt fuel)).
Proof.
  intros ceps seps N D d C L mk HN Hs Ha. split; [|split].
  - intros m. now apply gaskell_free.
  - intros Lp. now apply suppression_free.
  - intros. now apply paessens_free.
Qed.
Print Assumptions C105_without_interrupts.

(** Interrupts outside the try block of parallel savings, among them all those during the 3-opt
    phase of Paessens' variant, are lost: the call never raises. *)
Theorem C105_lost_refuted :
  forall ceps seps N D d C L minimize_K stops,
    (forall t j, stops t <> Some (In_savings j)) ->
    (forall m out, gaskell_stopped ceps seps N D d C L minimize_K m stops = Some out -> exists sol, out = Returns sol) /\
    (forall s do_3opt fuel out, paessens_stopped seps ceps N D d C L minimize_K s do_3opt fuel stops = Some out ->
       exists sol, out = Returns sol) /\
    (forall Lprime out, suppression_stopped ceps seps N D d C L minimize_K Lprime stops = Some out ->
       exists sol, out = Returns sol).
Proof.
  intros ceps seps N D d C L mk stops Hs. split; [|split]; intros *.
  - now apply gaskell_lost.
  - now apply paessens_lost.
  - now apply suppression_lost.
Qed.
Print Assumptions C105_lost_refuted.

(** All eight runs interrupted during 3-opt, and the call still returns. *)
Example C105_lost_run :
  paessens_stopped 0 0 6 ex_sD (fun i => if Nat.eqb i 0 then 0 else 1) (Some 3) (Some 40) false M4 true 50 (fun _ => Some In_search)
  = Some (Returns (Some (encode [[1; 2]; [3; 4; 5]]%nat))).
Proof. vm_compute. reflexivity. Qed.

(** With a single run, a lost interrupt makes the call return None, whatever the problem. *)
Theorem C105_returns_none_refuted :
  forall ceps seps N D d C L minimize_K stops,
    stops 0%nat = Some Before_savings ->
    gaskell_stopped ceps seps N D d C L minimize_K Pi stops = Some (Returns None) /\
    gaskell_stopped ceps seps N D d C L minimize_K Lambda stops = Some (Returns None) /\
    suppression_stopped ceps seps 3 D d C L minimize_K (Some 1%nat) stops = Some (Returns None).
Proof.
  intros ceps seps N D d C L mk stops H. unfold gaskell_stopped, suppression_stopped.
  change (suppression_count 3 (Some 1%nat)) with 1%nat. cbn. rewrite H. auto.
Qed.
Print Assumptions C105_returns_none_refuted.

(** In the window of C26 the solution handed over serves customers twice. *)
Theorem C105_served_twice_refuted :
  exists N D d C L stops rs,
    symmetric D /\ served_alone N D d C L 0 0 /\
    gaskell_stopped 0 0 N D d C L false Pi stops = Some (Interrupted (Some (encode rs))) /\ ~ covers N rs.
Proof.
  exists 6%nat, ex_sD, (fun _ => 1), (Some 3), (Some 40), (fun _ => Some (In_savings 8)), [[1]; [2]; [3]; [4; 5]; [5]]%nat.
  split; [exact ex_sD_symmetric|]. split; [exact ex_served_alone|].
  split; [vm_compute; reflexivity|]. intros H. apply Permutation_length in H. discriminate H.
Qed.
Print Assumptions C105_served_twice_refuted.
