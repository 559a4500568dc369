(** * P_Edge: further clauses of earlier properties (C05, C14) about undefined values *)

From Coq Require Import Reals List ZArith Lia Lra Bool.
From Verif Require Import Num NpList M_Utils M_Estimators S_Base S_Estimators S_Examples L_Num L_Base L_Utils L_Estimators L_EstProps L_Examples P_Utils P_Estimators.
Import ListNotations.
Open Scope R_scope.

(** One undefined sample is enough: if a resample that contains it is drawn, mean and bounds are all undefined, never a number. *)
Theorem C05_undefined_samples : forall samples alpha n_boot choice b j,
  0 <= alpha <= 1 -> (1 <= n_boot)%Z -> (b < Z.to_nat n_boot)%nat -> (j < length samples)%nat -> nth (choice b j) samples NaN = NaN ->
  estimate_confidence_interval_by_bootstrap samples alpha n_boot choice = Ok {| ci_mean := NaN; ci_lower := NaN; ci_upper := NaN |}.
Proof.
  intros samples alpha n_boot choice b j Ha Hn Hb Hj HN. unfold estimate_confidence_interval_by_bootstrap.
  assert (EC : check_confidence_interval_arguments (Fin alpha) n_boot = Ok tt).
  { unfold check_confidence_interval_arguments, check_scalar, check_scalar_Z. cbn [nlt]. rewrite (proj2 (Rltb_false alpha 0)) by lra. rewrite (proj2 (Rltb_false 1 alpha)) by lra.
    cbn [raise_if bind]. destruct (Z.ltb_spec n_boot 1); [lia|]. reflexivity. }
  rewrite EC. cbn [bind].
  assert (HI : In NaN (boot_samples samples n_boot choice)).
  { unfold boot_samples. apply in_map_iff. exists b. split; [|apply in_seq; lia]. apply nmean_NaN. apply in_map_iff. exists j. split; [auto|apply in_seq; lia]. }
  rewrite nmean_NaN by exact HI.
  assert (EP : forall q, npercentile (boot_samples samples n_boot choice) q = NaN).
  { intros q. unfold npercentile. destruct (all_fin (boot_samples samples n_boot choice)) as [rs|] eqn:E; [|reflexivity]. exfalso. revert rs E HI.
    generalize (boot_samples samples n_boot choice). induction l as [|x l IH]; intros rs E HI; [destruct HI|]. destruct HI as [->|HI]; [discriminate|].
    cbn in E. destruct x; try discriminate. destruct (all_fin l) as [rs'|]; [|discriminate]. apply (IH rs' eq_refl HI). }
  rewrite !EP. reflexivity.
Qed.

(** SNIPW's interval is undefined too when no logged action has evaluation mass. *)
Theorem C14_snipw_interval_nan : forall l use_est ps eps arg alpha n_boot choice,
  accepted l -> position_arg l arg -> pscore_arg l use_est ps eps -> 0 <= alpha <= 1 -> (1 <= n_boot)%Z ->
  (forall b j, (j < lg_n l)%nat -> (choice b j < lg_n l)%nat) ->
  (forall i, (i < lg_n l)%nat -> lg_pi l i (lg_a l i) (lg_pos l i) = 0) ->
  ipw_like_interval snipw_round use_est (rewards l) (actions l) (policy l) ps arg eps alpha n_boot choice =
  Ok {| ci_mean := NaN; ci_lower := NaN; ci_upper := NaN |}.
Proof.
  intros l ue ps eps arg alpha n_boot choice Hacc Hpos Hps Ha Hb Hch H0.
  assert (Hw : forall i, (i < lg_n l)%nat -> weight l i = 0).
  { intros i Hi. unfold weight. rewrite H0 by auto. lra. }
  assert (Hn : (0 < lg_n l)%nat) by apply Hacc.
  unfold ipw_like_interval, ipw_like_rounds. rewrite (choose_pscore_ok _ l) by auto. cbn [bind].
  rewrite check_ok by auto. cbn [bind]. rewrite default_position_ok by auto. rewrite snipw_round_num by auto. cbn [bind].
  apply (C05_undefined_samples _ alpha n_boot choice 0 0); auto; [lia| |].
  - rewrite tab_length. auto.
  - assert (Hc : (choice 0%nat 0%nat < lg_n l)%nat) by auto. rewrite nth_tab by exact Hc. rewrite Hw by auto. rewrite Rmult_0_r.
    replace (avg (lg_n l) (weight l)) with 0. apply ndiv_0_0. unfold avg. rewrite sumn_zero by auto. lra.
Qed.

Example C14_interval_example : exists l, accepted l /\ position_arg l None /\ pscore_arg l false (Some (pscores l)) None /\
  (forall i, (i < lg_n l)%nat -> lg_pi l i (lg_a l i) (lg_pos l i) = 0) /\
  ipw_like_interval snipw_round false (rewards l) (actions l) (policy l) (Some (pscores l)) None None (5 / 100) 10 (fun _ j => j) =
  Ok {| ci_mean := NaN; ci_lower := NaN; ci_upper := NaN |}.
Proof.
  assert (HP : pscore_arg ex_nomass false (Some (pscores ex_nomass)) None) by (unfold pscore_arg; auto).
  exists ex_nomass. split; [apply ex_nomass_accepted|]. split; [apply ex_nomass_pos|]. split; [exact HP|]. split; [reflexivity|].
  apply C14_snipw_interval_nan; auto; [apply ex_nomass_accepted|apply ex_nomass_pos|lra|lia].
Qed.

Print Assumptions C05_undefined_samples.
Print Assumptions C14_snipw_interval_nan.
