(** * Proofs: the names of the heuristics *)
From Verif Require Import Spec M_text M_cli2 M_algos.
From Coq Require Import List String.
Import ListNotations.

Lemma named_known names a : In a (get_algorithms false names) ->
  (exists h, In h heuristics /\ a = short_name h) \/ a = str "wh".
Proof.
  unfold get_algorithms. rewrite in_flat_map. intros (n & _ & H). unfold algos_named in H. destruct (alias (lower n)) as [t|]; [|easy].
  apply in_flat_map in H. destruct H as ([[abbr classical] gurobi] & Hq & H).
  assert (E : a = str abbr /\ gurobi = false).
  { destruct (text_eqb _ _ || _ || _)%bool; [|easy]. destruct gurobi; [easy|]. destruct H as [<-|[]]. now split. }
  destruct E as [-> ->]. clear H.
  unfold algo_table in Hq. cbn [In] in Hq.
  repeat (destruct Hq as [Hq|Hq]; [try discriminate Hq; injection Hq as <- _; try (right; reflexivity); left|]); [.. | easy].
  - exists HPs. split; [cbn; tauto|reflexivity].
  - exists HPs2o. split; [cbn; tauto|reflexivity].
  - exists HGpl. split; [cbn; tauto|reflexivity].
  - exists HSs. split; [cbn; tauto|reflexivity].
  - exists HGps. split; [cbn; tauto|reflexivity].
  - exists HIms. split; [cbn; tauto|reflexivity].
  - exists HSi. split; [cbn; tauto|reflexivity].
  - exists HMj. split; [cbn; tauto|reflexivity].
  - exists HPi. split; [cbn; tauto|reflexivity].
  - exists HCmt. split; [cbn; tauto|reflexivity].
  - exists HSn. split; [cbn; tauto|reflexivity].
  - exists HPn. split; [cbn; tauto|reflexivity].
  - exists HTy. split; [cbn; tauto|reflexivity].
  - exists HSwp. split; [cbn; tauto|reflexivity].
  - exists HGm. split; [cbn; tauto|reflexivity].
  - exists HRfcs. split; [cbn; tauto|reflexivity].
  - exists HLr3o. split; [cbn; tauto|reflexivity].
Qed.
