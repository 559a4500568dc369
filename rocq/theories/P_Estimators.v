(** * P_Estimators: properties C10-C26 (obp/ope/estimators.py).

    Each theorem is about the modelled Python entry point (validation included) applied to the
    arrays of a log [l].  See S_Estimators.v for [accepted], [weight], [clip], [q_pi], ...  *)

From Coq Require Import Reals List ZArith Bool Lia Lra.
From Verif Require Import Num NpList M_Utils M_Estimators S_Base S_Prob S_Estimators S_Env S_Examples
  L_Num L_Base L_Estimators L_Unbiased L_EstProps L_Examples.
Import ListNotations.
Open Scope R_scope.

(** ** C10 *)
Theorem C10_ipw_value : forall l lam use_est ps eps arg,
  accepted l -> position_arg l arg -> pscore_arg l use_est ps eps ->
  ipw_value (lam_num lam) use_est (rewards l) (actions l) (policy l) ps arg eps
  = Ok (Fin (avg (lg_n l) (fun i => lg_r l i * clip lam (weight l i)))).
Proof. intros. apply ipw_value_ok; auto. Qed.

(** Without the propensities selected by [use_estimated_pscore] the call is rejected. *)
Theorem C10_ipw_needs_pscore : forall lam reward action action_dist position other,
  ipw_value lam true reward action action_dist other position None = Err ValueError /\
  ipw_value lam false reward action action_dist None position other = Err ValueError.
Proof. intros; split; reflexivity. Qed.

Example C10_example : accepted ex_log /\ position_arg ex_log (Some (positions ex_log)) /\
  pscore_arg ex_log true None (Some (pscores ex_log)) /\
  ipw_value (Fin 1) true (rewards ex_log) (actions ex_log) (policy ex_log) None
    (Some (positions ex_log)) (Some (pscores ex_log)) = Ok (Fin (5/6)).
Proof.
  split; [apply ex_log_accepted|]. split; [apply ex_log_pos|]. split; [reflexivity|].
  rewrite (C10_ipw_value ex_log (Some 1)) by (auto using ex_log_accepted, ex_log_pos; reflexivity).
  do 2 f_equal. unfold avg, weight, clip; simpl. unfold Rmin.
  repeat match goal with |- context [Rle_dec ?a ?b] => destruct (Rle_dec a b); try lra end.
Qed.

(** ** C11 *)
Theorem C11_ipw_unbiased : forall (X : Type) (e : benv X) (qh : X -> nat -> nat -> R) arg,
  env_ok e -> common_support e ->
  (forall o, position_arg (log_of e (ev_pb e) qh o) arg) ->
  expects (log_dist e)
    (fun o => let l := log_of e (ev_pb e) qh o in
              ipw_value PInf false (rewards l) (actions l) (policy l) (Some (pscores l)) arg None)
    (policy_value e).
Proof. intros. apply ipw_unbiased; auto. Qed.

Example C11_example : env_ok ex_env /\ common_support ex_env /\
  (forall o, position_arg (log_of ex_env (ev_pb ex_env) (fun _ _ _ => 0) o) None).
Proof. auto using ex_env_ok, ex_env_support, ex_env_pos. Qed.

(** ** C12 *)
Theorem C12_clipping : forall l lam1 lam2 use_est ps eps arg,
  accepted l -> is_policy l -> position_arg l arg -> pscore_arg l use_est ps eps ->
  (forall i, (i < lg_n l)%nat -> 0 <= lg_r l i) -> 0 <= lam1 -> lam1 <= lam2 ->
  exists v1 v2 vinf,
    ipw_value (Fin lam1) use_est (rewards l) (actions l) (policy l) ps arg eps = Ok (Fin v1) /\
    ipw_value (Fin lam2) use_est (rewards l) (actions l) (policy l) ps arg eps = Ok (Fin v2) /\
    ipw_value PInf use_est (rewards l) (actions l) (policy l) ps arg eps = Ok (Fin vinf) /\
    0 <= v1 /\ v1 <= v2 /\ v2 <= vinf /\
    (forall M, (forall i, (i < lg_n l)%nat -> lg_r l i <= M) -> v1 <= lam1 * M) /\
    ((forall i, (i < lg_n l)%nat -> weight l i <= lam1) -> v1 = vinf).
Proof.
  intros l lam1 lam2 ue ps eps arg Hacc Hpol Hpos Hps Hr H1 H12.
  pose proof (acc_n l Hacc) as Hn.
  assert (Hw : forall i, (i < lg_n l)%nat -> 0 <= weight l i) by (intros; apply weight_nonneg; auto).
  exists (spec_ipw (Some lam1) l), (spec_ipw (Some lam2) l), (spec_ipw None l).
  split; [apply (ipw_value_ok (Some lam1)); auto|].
  split; [apply (ipw_value_ok (Some lam2)); auto|].
  split; [apply (ipw_value_ok None); auto|].
  unfold spec_ipw, clip. repeat split.
  - rewrite <- (avg_const (lg_n l) 0) by auto. apply avg_le; auto. intros i Hi.
    apply Rmult_le_pos; auto. apply Rmin_glb; auto.
  - apply avg_le; auto. intros i Hi. apply Rmult_le_compat_l; auto.
    apply Rmin_glb; [apply Rmin_l|]. eapply Rle_trans; [apply Rmin_r|lra].
  - apply avg_le; auto. intros i Hi. apply Rmult_le_compat_l; auto. apply Rmin_l.
  - intros M HM. rewrite <- (avg_const (lg_n l) (lam1 * M)) by auto. apply avg_le; auto. intros i Hi.
    rewrite Rmult_comm. apply Rmult_le_compat; auto. apply Rmin_glb; auto. apply Rmin_r.
  - intros H. apply avg_ext. intros i Hi. rewrite Rmin_left by auto. reflexivity.
Qed.

Example C12_example : accepted ex_log /\ is_policy ex_log /\
  (forall i, (i < lg_n ex_log)%nat -> 0 <= lg_r ex_log i) /\ exists i, (i < lg_n ex_log)%nat /\ weight ex_log i > 1.
Proof.
  split; [apply ex_log_accepted|]. split; [apply ex_log_policy|]. split.
  - simpl; intros i Hi; idx i; simpl; try lia; lra.
  - exists 1%nat. simpl. split; [lia|]. unfold weight; simpl; lra.
Qed.

(** ** C13 *)
Theorem C13_snipw_value : forall l use_est ps eps arg,
  accepted l -> is_policy l -> position_arg l arg -> pscore_arg l use_est ps eps ->
  (exists i, (i < lg_n l)%nat /\ 0 < weight l i) ->
  exists v,
    snipw_value use_est (rewards l) (actions l) (policy l) ps arg eps = Ok (Fin v) /\
    v = sumn (lg_n l) (fun i => weight l i * lg_r l i) / sumn (lg_n l) (weight l) /\
    forall lo hi, bounded_by (lg_n l) (lg_r l) lo hi -> lo <= v <= hi.
Proof.
  intros l ue ps eps arg Hacc Hpol Hpos Hps (k & Hk & Hwk).
  assert (Hw : forall i, (i < lg_n l)%nat -> 0 <= weight l i) by (intros; apply weight_nonneg; auto).
  assert (Hs : 0 < sumn (lg_n l) (weight l)) by (apply (sumn_pos _ _ k); auto).
  exists (spec_snipw l). split; [apply snipw_value_ok; auto; lra|]. split; [reflexivity|].
  intros lo hi Hb. apply convex_bounds; auto.
Qed.

(** Translation equivariance in the rewards. *)
Theorem C13_snipw_shift : forall l c use_est ps eps arg v,
  accepted l -> position_arg l arg -> pscore_arg l use_est ps eps ->
  sumn (lg_n l) (weight l) <> 0 ->
  snipw_value use_est (rewards l) (actions l) (policy l) ps arg eps = Ok (Fin v) ->
  snipw_value use_est (rewards (shift_rewards c l)) (actions l) (policy l) ps arg eps = Ok (Fin (v + c)).
Proof.
  intros l c ue ps eps arg v Hacc Hpos Hps Hs Hv.
  rewrite snipw_value_ok in Hv by auto. injection Hv as <-.
  change (actions l) with (actions (shift_rewards c l)). change (policy l) with (policy (shift_rewards c l)).
  rewrite snipw_value_ok; auto.
  2:{ destruct Hacc; constructor; auto. }
  do 2 f_equal. unfold spec_snipw. simpl.
  rewrite (sumn_ext _ (fun i => weight (shift_rewards c l) i * (lg_r l i + c))
                      (fun i => weight l i * lg_r l i + weight l i * c)).
  2:{ intros. unfold weight; simpl; lra. }
  rewrite sumn_plus, sumn_scal_r. change (weight (shift_rewards c l)) with (weight l). field; auto.
Qed.

(** Invariance under rescaling of the propensities. *)
Theorem C13_snipw_rescale : forall l c arg,
  accepted l -> position_arg l arg -> 0 < c -> sumn (lg_n l) (weight l) <> 0 ->
  snipw_value false (rewards l) (actions l) (policy l) (Some (pscores (scale_pscores c l))) arg None
  = snipw_value false (rewards l) (actions l) (policy l) (Some (pscores l)) arg None.
Proof.
  intros l c arg Hacc Hpos Hc Hs.
  assert (Hacc' : accepted (scale_pscores c l)).
  { destruct Hacc; constructor; auto. simpl. intros. apply Rmult_lt_0_compat; auto. }
  assert (Hw : forall i, (i < lg_n l)%nat -> weight (scale_pscores c l) i = weight l i / c).
  { intros i Hi. unfold weight. simpl. pose proof (acc_p l Hacc i Hi). field. split; lra. }
  transitivity (Ok (Fin (spec_snipw l))); [|symmetry; exact (snipw_value_ok false l arg (Some (pscores l)) None Hacc Hpos eq_refl Hs)].
  change (actions l) with (actions (scale_pscores c l)). change (policy l) with (policy (scale_pscores c l)).
  change (rewards l) with (rewards (scale_pscores c l)).
  assert (Hsum : sumn (lg_n l) (weight (scale_pscores c l)) = sumn (lg_n l) (weight l) / c).
  { rewrite <- sumn_div. apply sumn_ext; auto. }
  rewrite snipw_value_ok; auto; try reflexivity.
  - do 2 f_equal. unfold spec_snipw. simpl.
    rewrite Hsum, (sumn_ext _ _ (fun i => weight l i * lg_r l i / c)), sumn_div.
    + field. split; lra.
    + intros i Hi. rewrite Hw by auto. field; lra.
  - simpl. rewrite Hsum. unfold Rdiv. apply Rmult_integral_contrapositive. split; auto.
    apply Rinv_neq_0_compat; lra.
Qed.

Example C13_example : accepted ex_log /\ is_policy ex_log /\
  (exists i, (i < lg_n ex_log)%nat /\ 0 < weight ex_log i) /\ sumn (lg_n ex_log) (weight ex_log) <> 0.
Proof.
  split; [apply ex_log_accepted|]. split; [apply ex_log_policy|]. split.
  - exists 1%nat. simpl. split; [lia|]. unfold weight; simpl; lra.
  - unfold weight; simpl; lra.
Qed.

(** ** C14 *)
Theorem C14_snipw_nan : forall l use_est ps eps arg,
  accepted l -> position_arg l arg -> pscore_arg l use_est ps eps ->
  (forall i, (i < lg_n l)%nat -> lg_pi l i (lg_a l i) (lg_pos l i) = 0) ->
  snipw_value use_est (rewards l) (actions l) (policy l) ps arg eps = Ok NaN.
Proof.
  intros l ue ps eps arg Hacc Hpos Hps H0.
  assert (Hw : forall i, (i < lg_n l)%nat -> weight l i = 0).
  { intros i Hi. unfold weight. rewrite H0 by auto. lra. }
  unfold snipw_value. rewrite (ipw_like_value_num _ _ l _ _ _ _ Hacc Hpos Hps (snipw_round_num l Hacc)).
  f_equal. apply nmean_NaN. apply In_tab. exists 0%nat. split; [apply Hacc|].
  rewrite Hw by (apply Hacc). rewrite Rmult_0_r.
  replace (avg (lg_n l) (weight l)) with 0. apply ndiv_0_0.
  unfold avg. rewrite sumn_zero by auto. lra.
Qed.

Example C14_example : accepted ex_nomass /\ position_arg ex_nomass None /\
  (forall i, (i < lg_n ex_nomass)%nat -> lg_pi ex_nomass i (lg_a ex_nomass i) (lg_pos ex_nomass i) = 0).
Proof. split; [apply ex_nomass_accepted|]. split; [apply ex_nomass_pos|reflexivity]. Qed.

(** ** C15 *)
Theorem C15_dm_value : forall l arg, accepted l -> position_arg l arg ->
  exists v,
    dm_value (policy l) (model l) arg = Ok (Fin v) /\
    v = avg (lg_n l) (fun i =>
          sumn (lg_K l) (fun a => lg_q l i a (lg_pos l i) * lg_pi l i a (lg_pos l i))
          / sumn (lg_K l) (fun a => lg_pi l i a (lg_pos l i))) /\
    (is_policy l -> forall lo hi,
       (forall i a, (i < lg_n l)%nat -> (a < lg_K l)%nat -> lo <= lg_q l i a (lg_pos l i) <= hi) ->
       lo <= v <= hi) /\
    forall c, dm_value (policy l) (model (shift_model c l)) arg = Ok (Fin (v + c)).
Proof.
  intros l arg Hacc Hpos. exists (spec_dm l).
  split; [apply dm_value_ok; auto|]. split; [reflexivity|]. split.
  - intros Hpol lo hi Hb. apply avg_bounds. apply Hacc. intros i Hi. unfold q_pi.
    rewrite (sumn_ext _ (fun a => lg_q l i a (lg_pos l i) * lg_pi l i a (lg_pos l i))
               (fun a => lg_pi l i a (lg_pos l i) * lg_q l i a (lg_pos l i))) by (intros; lra).
    apply convex_bounds.
    + intros a Ha. apply Hpol; auto. apply Hacc; auto.
    + apply acc_sum_pos; auto. apply Hacc; auto.
    + intros a Ha. auto.
  - intros c. change (policy l) with (policy (shift_model c l)). rewrite dm_value_ok; auto.
    2:{ destruct Hacc; constructor; auto. }
    do 2 f_equal. unfold spec_dm. simpl.
    rewrite <- (avg_const (lg_n l) c) at 2 by (apply Hacc). rewrite <- avg_plus.
    apply avg_ext. intros i Hi. unfold q_pi; simpl.
    pose proof (acc_sum_pos l i (lg_pos l i) Hacc Hi (acc_pos l Hacc i Hi)) as Hp.
    rewrite (sumn_ext _ (fun a => (lg_q l i a (lg_pos l i) + c) * lg_pi l i a (lg_pos l i))
               (fun a => lg_q l i a (lg_pos l i) * lg_pi l i a (lg_pos l i)
                         + c * lg_pi l i a (lg_pos l i))) by (intros; lra).
    rewrite sumn_plus, sumn_scal. field. lra.
Qed.

Example C15_example : accepted ex_log /\ is_policy ex_log /\ position_arg ex_log (Some (positions ex_log)).
Proof. auto using ex_log_accepted, ex_log_policy, ex_log_pos. Qed.

(** ** C16 *)
Theorem C16_dr_value : forall l lam use_est ps eps arg,
  accepted l -> position_arg l arg -> pscore_arg l use_est ps eps ->
  exists dm,
    dm_value (policy l) (model l) arg = Ok (Fin dm) /\
    dr_value (lam_num lam) use_est (rewards l) (actions l) (policy l) (model l) ps arg eps
    = Ok (Fin (dm + avg (lg_n l) (fun i => clip lam (weight l i) * (lg_r l i - q_at l i)))).
Proof.
  intros. exists (spec_dm l). split. apply dm_value_ok; auto. apply dr_value_ok; auto.
Qed.

(** With a zero reward model DR is IPW (any lambda). *)
Theorem C16_dr_zero_model : forall l lam use_est ps eps arg,
  accepted l -> position_arg l arg -> pscore_arg l use_est ps eps ->
  (forall i a s, lg_q l i a s = 0) ->
  dr_value (lam_num lam) use_est (rewards l) (actions l) (policy l) (model l) ps arg eps
  = ipw_value (lam_num lam) use_est (rewards l) (actions l) (policy l) ps arg eps.
Proof.
  intros l lam ue ps eps arg Hacc Hpos Hps Hq.
  rewrite dr_value_ok, ipw_value_ok by auto. do 2 f_equal.
  unfold spec_dr, spec_dr_with, spec_dm, spec_ipw. rewrite <- avg_plus. apply avg_ext. intros i Hi.
  unfold q_at, q_pi. rewrite Hq.
  rewrite (sumn_zero _ (fun a => lg_q l i a (lg_pos l i) * lg_pi l i a (lg_pos l i))).
  - lra.
  - intros. rewrite Hq. lra.
Qed.

(** When the model reproduces the logged rewards, or with lambda = 0 (and non-negative
    evaluation probabilities), DR is DM. *)
Theorem C16_dr_is_dm : forall l lam use_est ps eps arg,
  accepted l -> position_arg l arg -> pscore_arg l use_est ps eps ->
  (forall i, (i < lg_n l)%nat -> q_at l i = lg_r l i) \/ (lam = Some 0 /\ is_policy l) ->
  dr_value (lam_num lam) use_est (rewards l) (actions l) (policy l) (model l) ps arg eps
  = dm_value (policy l) (model l) arg.
Proof.
  intros l lam ue ps eps arg Hacc Hpos Hps Hq.
  rewrite dr_value_ok, dm_value_ok by auto. do 2 f_equal.
  unfold spec_dr, spec_dr_with. unfold avg at 1. rewrite sumn_zero. lra.
  intros i Hi. destruct Hq as [Hq|[-> Hpol]].
  - rewrite Hq by auto. lra.
  - unfold clip. rewrite Rmin_right. lra. apply weight_nonneg; auto.
Qed.

Example C16_example : accepted ex_log /\ is_policy ex_log /\ position_arg ex_log (Some (positions ex_log)) /\
  (forall i a s, lg_q (with_model (fun _ _ _ => 0) ex_log) i a s = 0) /\
  (exists i, (i < 3)%nat /\ q_at ex_log i <> lg_r ex_log i).
Proof.
  split; [apply ex_log_accepted|]. split; [apply ex_log_policy|]. split; [apply ex_log_pos|].
  split; [reflexivity|].
  exists 0%nat. unfold q_at; simpl. split; [lia|lra].
Qed.

(** ** C17, C18 *)
Theorem C17_dr_unbiased_true_pscore : forall (X : Type) (e : benv X) (qh : X -> nat -> nat -> R) arg,
  env_ok e -> common_support e ->
  (forall o, position_arg (log_of e (ev_pb e) qh o) arg) ->
  expects (log_dist e)
    (fun o => let l := log_of e (ev_pb e) qh o in
              dr_value PInf false (rewards l) (actions l) (policy l) (model l) (Some (pscores l)) arg None)
    (policy_value e).
Proof. intros. apply dr_unbiased_pscore; auto. Qed.

Theorem C18_dr_unbiased_true_model : forall (X : Type) (e : benv X) (pt : X -> nat -> nat -> R) lam arg,
  env_ok e ->
  (forall x s a, (a < ev_K e)%nat -> 0 < ev_pb e x s a -> 0 < pt x s a) ->
  (forall o, position_arg (log_of e pt (fun x a s => q_true e x s a) o) arg) ->
  expects (log_dist e)
    (fun o => let l := log_of e pt (fun x a s => q_true e x s a) o in
              dr_value (lam_num lam) false (rewards l) (actions l) (policy l) (model l)
                       (Some (pscores l)) arg None)
    (policy_value e).
Proof. intros. apply dr_unbiased_model; auto. Qed.

Example C17_C18_example :
  env_ok ex_env /\ common_support ex_env /\
  (forall qh o, position_arg (log_of ex_env (ev_pb ex_env) qh o) None) /\
  (forall x s a, (a < ev_K ex_env)%nat -> 0 < ev_pb ex_env x s a -> 0 < (fun _ _ _ => 1/7) x s a) /\
  policy_value ex_env = 7/18.
Proof.
  split; [apply ex_env_ok|]. split; [apply ex_env_support|]. split; [intros; apply ex_env_pos|].
  split; [intros; lra|].
  unfold policy_value, avg, q_true, expect; simpl. field.
Qed.

(** ** C19 *)
Theorem C19_sndr_value : forall l use_est ps eps arg,
  accepted l -> position_arg l arg -> pscore_arg l use_est ps eps ->
  sumn (lg_n l) (weight l) <> 0 ->
  exists dm,
    dm_value (policy l) (model l) arg = Ok (Fin dm) /\
    sndr_value use_est (rewards l) (actions l) (policy l) (model l) ps arg eps
    = Ok (Fin (dm + sumn (lg_n l) (fun i => weight l i * (lg_r l i - q_at l i)) / sumn (lg_n l) (weight l))).
Proof. intros. exists (spec_dm l). split. apply dm_value_ok; auto. apply sndr_value_ok; auto. Qed.

Theorem C19_sndr_zero_model : forall l use_est ps eps arg,
  accepted l -> position_arg l arg -> pscore_arg l use_est ps eps ->
  sumn (lg_n l) (weight l) <> 0 -> (forall i a s, lg_q l i a s = 0) ->
  sndr_value use_est (rewards l) (actions l) (policy l) (model l) ps arg eps
  = snipw_value use_est (rewards l) (actions l) (policy l) ps arg eps.
Proof.
  intros l ue ps eps arg Hacc Hpos Hps Hs Hq.
  rewrite sndr_value_ok, snipw_value_ok by auto. do 2 f_equal.
  unfold spec_sndr, spec_snipw, spec_dm.
  rewrite (avg_ext _ _ (fun _ => 0)).
  - rewrite avg_const by (apply Hacc). rewrite Rplus_0_l. f_equal. apply sumn_ext. intros i Hi.
    unfold q_at. rewrite Hq. lra.
  - intros i Hi. unfold q_pi. rewrite sumn_zero. lra. intros. rewrite Hq. lra.
Qed.

Theorem C19_sndr_rescale : forall l c arg,
  accepted l -> position_arg l arg -> 0 < c -> sumn (lg_n l) (weight l) <> 0 ->
  sndr_value false (rewards l) (actions l) (policy l) (model l) (Some (pscores (scale_pscores c l))) arg None
  = sndr_value false (rewards l) (actions l) (policy l) (model l) (Some (pscores l)) arg None.
Proof.
  intros l c arg Hacc Hpos Hc Hs.
  assert (Hacc' : accepted (scale_pscores c l)).
  { destruct Hacc; constructor; auto. simpl. intros. apply Rmult_lt_0_compat; auto. }
  assert (Hw : forall i, (i < lg_n l)%nat -> weight (scale_pscores c l) i = weight l i / c).
  { intros i Hi. unfold weight. simpl. pose proof (acc_p l Hacc i Hi). field. split; lra. }
  transitivity (Ok (Fin (spec_sndr l))); [|symmetry; exact (sndr_value_ok false l arg (Some (pscores l)) None Hacc Hpos eq_refl Hs)].
  change (actions l) with (actions (scale_pscores c l)). change (policy l) with (policy (scale_pscores c l)).
  change (rewards l) with (rewards (scale_pscores c l)). change (model l) with (model (scale_pscores c l)).
  assert (Hsum : sumn (lg_n l) (weight (scale_pscores c l)) = sumn (lg_n l) (weight l) / c).
  { rewrite <- sumn_div. apply sumn_ext; auto. }
  rewrite sndr_value_ok; auto; try reflexivity.
  - do 2 f_equal. unfold spec_sndr. change (spec_dm (scale_pscores c l)) with (spec_dm l). f_equal. simpl.
    rewrite Hsum, (sumn_ext _ _ (fun i => weight l i * (lg_r l i - q_at l i) / c)), sumn_div.
    + field. split; lra.
    + intros i Hi. rewrite Hw by auto. unfold q_at; simpl. field; lra.
  - simpl. rewrite Hsum. unfold Rdiv. apply Rmult_integral_contrapositive. split; auto.
    apply Rinv_neq_0_compat; lra.
Qed.

Example C19_example : accepted ex_log /\ position_arg ex_log (Some (positions ex_log)) /\
  sumn (lg_n ex_log) (weight ex_log) <> 0.
Proof.
  split; [apply ex_log_accepted|]. split; [apply ex_log_pos|]. unfold weight; simpl; lra.
Qed.

(** ** C20 *)
Theorem C20_switch_value : forall l lam use_est ps eps arg,
  accepted l -> position_arg l arg -> pscore_arg l use_est ps eps ->
  exists dm,
    dm_value (policy l) (model l) arg = Ok (Fin dm) /\
    switch_value (Fin lam) use_est (rewards l) (actions l) (policy l) (model l) ps arg eps
    = Ok (Fin (dm + avg (lg_n l) (fun i =>
         (if Rle_dec (weight l i) lam then weight l i else 0) * (lg_r l i - q_at l i)))).
Proof.
  intros. exists (spec_dm l). split. apply dm_value_ok; auto.
  apply (switch_value_ok (Some lam)); auto.
Qed.

Theorem C20_switch_limits : forall l use_est ps eps arg,
  accepted l -> position_arg l arg -> pscore_arg l use_est ps eps ->
  switch_value PInf use_est (rewards l) (actions l) (policy l) (model l) ps arg eps
  = dr_value PInf use_est (rewards l) (actions l) (policy l) (model l) ps arg eps /\
  (forall lam, (forall i, (i < lg_n l)%nat -> weight l i <= lam) ->
     switch_value (Fin lam) use_est (rewards l) (actions l) (policy l) (model l) ps arg eps
     = dr_value PInf use_est (rewards l) (actions l) (policy l) (model l) ps arg eps) /\
  (forall lam, (forall i, (i < lg_n l)%nat -> lam < weight l i) ->
     switch_value (Fin lam) use_est (rewards l) (actions l) (policy l) (model l) ps arg eps
     = dm_value (policy l) (model l) arg).
Proof.
  intros l ue ps eps arg Hacc Hpos Hps.
  assert (Hdr := dr_value_ok None ue l arg ps eps Hacc Hpos Hps). cbn [lam_num] in Hdr. rewrite Hdr.
  split; [|split].
  - exact (switch_value_ok None ue l arg ps eps Hacc Hpos Hps).
  - intros lam Hl. etransitivity; [exact (switch_value_ok (Some lam) ue l arg ps eps Hacc Hpos Hps)|].
    do 2 f_equal. unfold spec_switch, spec_dr, spec_dr_with. f_equal. apply avg_ext. intros i Hi.
    destruct (Rle_dec _ _) as [|N]; [reflexivity|]. exfalso; apply N; auto.
  - intros lam Hl. etransitivity; [exact (switch_value_ok (Some lam) ue l arg ps eps Hacc Hpos Hps)|]. rewrite dm_value_ok by auto.
    do 2 f_equal. unfold spec_switch, spec_dr_with. unfold avg. rewrite sumn_zero. lra.
    intros i Hi. destruct (Rle_dec _ _) as [N|]; [|lra]. specialize (Hl i Hi). lra.
Qed.

Example C20_example : accepted ex_log /\ position_arg ex_log (Some (positions ex_log)) /\
  (forall i, (i < lg_n ex_log)%nat -> weight ex_log i <= 3) /\
  (forall i, (i < lg_n ex_log)%nat -> 1/4 < weight ex_log i).
Proof.
  split; [apply ex_log_accepted|]. split; [apply ex_log_pos|].
  split; simpl; intros i Hi; unfold weight; idx i; simpl; try lia; lra.
Qed.

(** ** C21 *)
Theorem C21_dros_value : forall l lam use_est ps eps arg,
  accepted l -> is_policy l -> position_arg l arg -> pscore_arg l use_est ps eps -> 0 < lam ->
  (exists dm what,
    dm_value (policy l) (model l) arg = Ok (Fin dm) /\
    dros_value (Fin lam) use_est (rewards l) (actions l) (policy l) (model l) ps arg eps
    = Ok (Fin (dm + avg (lg_n l) (fun i => what i * (lg_r l i - q_at l i)))) /\
    forall i, (i < lg_n l)%nat ->
      what i = lam * weight l i / (weight l i * weight l i + lam) /\
      0 <= what i <= weight l i /\ what i <= sqrt lam / 2 /\
      forall lam', lam <= lam' -> what i <= lam' * weight l i / (weight l i * weight l i + lam')) /\
  dros_value PInf use_est (rewards l) (actions l) (policy l) (model l) ps arg eps
  = dr_value PInf use_est (rewards l) (actions l) (policy l) (model l) ps arg eps.
Proof.
  intros l lam ue ps eps arg Hacc Hpol Hpos Hps Hl. split.
  - exists (spec_dm l), (fun i => os_shrink lam (weight l i)). split; [apply dm_value_ok; auto|]. split.
    + apply dros_value_ok; auto. intros i Hi. nra.
    + intros i Hi. pose proof (weight_nonneg l i Hacc Hpol Hi) as Hw.
      pose proof (os_shrink_bounds lam _ Hl Hw). split; [reflexivity|]. split; [lra|]. split; [lra|].
      intros lam' Hl'. apply os_shrink_mono; auto.
  - rewrite dros_value_inf by auto. symmetry. exact (dr_value_ok None ue l arg ps eps Hacc Hpos Hps).
Qed.

Example C21_example : accepted ex_log /\ is_policy ex_log /\ position_arg ex_log (Some (positions ex_log)).
Proof. auto using ex_log_accepted, ex_log_policy, ex_log_pos. Qed.

(** ** C22 *)
Theorem C22_dros_zero_lambda : forall l use_est ps eps arg,
  accepted l -> position_arg l arg -> pscore_arg l use_est ps eps ->
  ((forall i, (i < lg_n l)%nat -> lg_pi l i (lg_a l i) (lg_pos l i) <> 0) ->
     dros_value (Fin 0) use_est (rewards l) (actions l) (policy l) (model l) ps arg eps
     = dm_value (policy l) (model l) arg) /\
  ((exists i, (i < lg_n l)%nat /\ lg_pi l i (lg_a l i) (lg_pos l i) = 0) ->
     dros_value (Fin 0) use_est (rewards l) (actions l) (policy l) (model l) ps arg eps = Ok NaN).
Proof.
  intros l ue ps eps arg Hacc Hpos Hps. split.
  - intros Hz. rewrite dm_value_ok by auto. rewrite dros_value_ok; auto.
    + do 2 f_equal. unfold spec_dros, spec_dr_with, avg. rewrite sumn_zero. lra.
      intros i Hi. unfold os_shrink. rewrite Rmult_0_l. unfold Rdiv. rewrite !Rmult_0_l. reflexivity.
    + intros i Hi. rewrite Rplus_0_r. specialize (Hz i Hi). pose proof (acc_p l Hacc i Hi).
      assert (weight l i <> 0).
      { unfold weight, Rdiv. apply Rmult_integral_contrapositive. split; auto. apply Rinv_neq_0_compat; lra. }
      apply Rmult_integral_contrapositive. auto.
  - intros (k & Hk & Hz). unfold dros_value.
    rewrite (dr_like_value_num _ _ l _ _ _ _ Hacc Hpos Hps (dros_round_num (Fin 0) l Hacc)).
    f_equal. apply nmean_NaN. apply In_tab. exists k. split; auto.
    replace (weight l k) with 0 by (unfold weight; rewrite Hz; lra).
    replace (os_weight (Fin 0) (Fin 0)) with NaN. rewrite nmul_NaN_l. reflexivity.
    unfold os_weight. simpl. rewrite !Rmult_0_l, Rplus_0_r, Reqb_refl. unfold inf_sign. rdec. reflexivity.
Qed.

Example C22_example :
  (accepted ex_log /\ forall i, (i < lg_n ex_log)%nat -> lg_pi ex_log i (lg_a ex_log i) (lg_pos ex_log i) <> 0) /\
  (accepted ex_det /\ exists i, (i < lg_n ex_det)%nat /\ lg_pi ex_det i (lg_a ex_det i) (lg_pos ex_det i) = 0).
Proof.
  split; split; try apply ex_log_accepted; try apply ex_det_accepted.
  - simpl; intros i Hi; idx i; simpl; try lia; lra.
  - exists 1%nat. simpl. split; [lia|reflexivity].
Qed.

(** ** C23 *)
Theorem C23_sub_gaussian : forall l lam use_est ps eps arg,
  accepted l -> is_policy l -> position_arg l arg -> pscore_arg l use_est ps eps -> 0 <= lam < 1 ->
  exists dm what,
    dm_value (policy l) (model l) arg = Ok (Fin dm) /\
    sgipw_value (Fin lam) use_est (rewards l) (actions l) (policy l) ps arg eps
    = Ok (Fin (avg (lg_n l) (fun i => lg_r l i * what i))) /\
    sgdr_value (Fin lam) use_est (rewards l) (actions l) (policy l) (model l) ps arg eps
    = Ok (Fin (dm + avg (lg_n l) (fun i => what i * (lg_r l i - q_at l i)))) /\
    forall i, (i < lg_n l)%nat ->
      what i = weight l i / (1 - lam + lam * weight l i) /\
      (0 < lam -> 0 <= what i < / lam) /\
      (0 < lam -> Rmin 1 (weight l i) <= what i <= Rmax 1 (weight l i)) /\
      (forall j, (j < lg_n l)%nat -> weight l i <= weight l j -> what i <= what j).
Proof.
  intros l lam ue ps eps arg Hacc Hpol Hpos Hps Hl.
  assert (Hd : forall i, (i < lg_n l)%nat -> 1 - lam + lam * weight l i <> 0).
  { intros i Hi. pose proof (sg_den_pos lam (weight l i) Hl (weight_nonneg l i Hacc Hpol Hi)). lra. }
  exists (spec_dm l), (fun i => sg_shrink lam (weight l i)).
  split; [apply dm_value_ok; auto|]. split; [apply sgipw_value_ok; auto|].
  split; [apply sgdr_value_ok; auto|].
  intros i Hi. pose proof (weight_nonneg l i Hacc Hpol Hi) as Hw. split; [reflexivity|].
  split; [|split]; intros.
  - apply sg_shrink_bounds; auto; lra.
  - apply sg_shrink_bounds; auto; lra.
  - apply sg_shrink_mono; auto.
Qed.

(** lambda = 0 is IPW / DR without clipping. *)
Theorem C23_sub_gaussian_zero : forall l use_est ps eps arg,
  accepted l -> position_arg l arg -> pscore_arg l use_est ps eps ->
  sgipw_value (Fin 0) use_est (rewards l) (actions l) (policy l) ps arg eps
  = ipw_value PInf use_est (rewards l) (actions l) (policy l) ps arg eps /\
  sgdr_value (Fin 0) use_est (rewards l) (actions l) (policy l) (model l) ps arg eps
  = dr_value PInf use_est (rewards l) (actions l) (policy l) (model l) ps arg eps.
Proof.
  intros l ue ps eps arg Hacc Hpos Hps.
  assert (E : forall w, sg_shrink 0 w = w) by (intros w; unfold sg_shrink; field).
  split.
  - rewrite sgipw_value_ok; auto. 2:{ intros; lra. }
    etransitivity; [|symmetry; exact (ipw_value_ok None ue l arg ps eps Hacc Hpos Hps)]. do 2 f_equal.
    apply avg_ext. intros. rewrite E. reflexivity.
  - rewrite sgdr_value_ok; auto. 2:{ intros; lra. }
    etransitivity; [|symmetry; exact (dr_value_ok None ue l arg ps eps Hacc Hpos Hps)]. do 2 f_equal.
    unfold spec_sgdr, spec_dr, spec_dr_with. f_equal. apply avg_ext. intros. rewrite E. reflexivity.
Qed.

(** lambda = 1: weight one on every round, NaN if some weight is zero. *)
Theorem C23_sub_gaussian_one : forall l use_est ps eps arg,
  accepted l -> position_arg l arg -> pscore_arg l use_est ps eps ->
  ((forall i, (i < lg_n l)%nat -> weight l i <> 0) ->
     sgipw_value (Fin 1) use_est (rewards l) (actions l) (policy l) ps arg eps
     = Ok (Fin (avg (lg_n l) (lg_r l)))) /\
  ((exists i, (i < lg_n l)%nat /\ weight l i = 0) ->
     sgipw_value (Fin 1) use_est (rewards l) (actions l) (policy l) ps arg eps = Ok NaN /\
     sgdr_value (Fin 1) use_est (rewards l) (actions l) (policy l) (model l) ps arg eps = Ok NaN).
Proof.
  intros l ue ps eps arg Hacc Hpos Hps. split.
  - intros Hz. rewrite sgipw_value_ok; auto.
    + do 2 f_equal. apply avg_ext. intros i Hi. unfold sg_shrink. field. specialize (Hz i Hi). lra.
    + intros i Hi. specialize (Hz i Hi). lra.
  - intros (k & Hk & Hz).
    assert (E : sg_weight (Fin 1) (Fin 0) = NaN).
    { unfold sg_weight. simpl. replace (1 + - (1) + 1 * 0) with 0 by lra. rewrite Reqb_refl.
      unfold inf_sign. rdec. reflexivity. }
    split.
    + unfold sgipw_value.
      rewrite (ipw_like_value_num _ _ l _ _ _ _ Hacc Hpos Hps (sgipw_round_num (Fin 1) l Hacc)).
      f_equal. apply nmean_NaN. apply In_tab. exists k. split; auto. rewrite Hz, E. reflexivity.
    + unfold sgdr_value.
      rewrite (dr_like_value_num _ _ l _ _ _ _ Hacc Hpos Hps (sgdr_round_num (Fin 1) l Hacc)).
      f_equal. apply nmean_NaN. apply In_tab. exists k. split; auto. rewrite Hz, E. reflexivity.
Qed.

Example C23_example : accepted ex_log /\ is_policy ex_log /\ position_arg ex_log (Some (positions ex_log)) /\
  (forall i, (i < lg_n ex_log)%nat -> weight ex_log i <> 0) /\
  accepted ex_det /\ (exists i, (i < lg_n ex_det)%nat /\ weight ex_det i = 0).
Proof.
  split; [apply ex_log_accepted|]. split; [apply ex_log_policy|]. split; [apply ex_log_pos|].
  split; [|split; [apply ex_det_accepted|]].
  - simpl; intros i Hi; unfold weight; idx i; simpl; try lia; lra.
  - exists 1%nat. simpl. split; [lia|unfold weight; simpl; lra].
Qed.

(** ** C24 *)
Theorem C24_replay : forall l arg, accepted l -> position_arg l arg ->
  exists v, rm_value (rewards l) (actions l) (policy l) arg = Ok (Fin v) /\
    ((forall i, (i < lg_n l)%nat -> lg_pi l i (lg_a l i) (lg_pos l i) <> 1) -> v = 0) /\
    ((exists i, (i < lg_n l)%nat /\ lg_pi l i (lg_a l i) (lg_pos l i) = 1) ->
       v * sumn (lg_n l) (matched l) = sumn (lg_n l) (fun i => matched l i * lg_r l i) /\
       sumn (lg_n l) (matched l) >= 1 /\
       forall lo hi, (forall i, (i < lg_n l)%nat -> lg_pi l i (lg_a l i) (lg_pos l i) = 1 ->
                        lo <= lg_r l i <= hi) -> lo <= v <= hi).
Proof.
  intros l arg Hacc Hpos. exists (spec_rm l). split; [apply rm_value_ok; auto|]. split.
  - intros H. unfold spec_rm. rewrite sumn_zero.
    + destruct (Req_EM_T 0 0); [reflexivity|lra].
    + intros i Hi. unfold matched. destruct (Req_EM_T _ _); auto. exfalso; eapply H; eauto.
  - intros (k & Hk & Hpk).
    assert (Hm : forall i, (i < lg_n l)%nat -> 0 <= matched l i) by (intros i _; destruct (matched_01 l i); lra).
    assert (Hmk : matched l k = 1) by (unfold matched; destruct (Req_EM_T _ _); congruence).
    assert (Hs : 1 <= sumn (lg_n l) (matched l)).
    { assert (E : sumn (lg_n l) (fun i => if Nat.eqb i k then 1 else 0) = 1).
      { rewrite (sumn_term _ _ k); auto. rewrite Nat.eqb_refl; auto.
        intros i _ Hne. apply Nat.eqb_neq in Hne. rewrite Hne; auto. }
      rewrite <- E. apply sumn_le. intros i Hi. destruct (Nat.eqb_spec i k); subst; auto; lra. }
    unfold spec_rm. destruct (Req_EM_T _ _) as [E|E]; [lra|]. split; [field; auto|]. split; [lra|].
    intros lo hi Hb.
    split; apply (Rmult_le_reg_r (sumn (lg_n l) (matched l))); try lra;
    unfold Rdiv; rewrite Rmult_assoc, Rinv_l, Rmult_1_r by lra; rewrite <- sumn_scal;
    apply sumn_le; intros i Hi; unfold matched; destruct (Req_EM_T _ _) as [E'|]; try lra;
    specialize (Hb i Hi E'); lra.
Qed.

Example C24_example : accepted ex_det /\ position_arg ex_det None /\
  (exists i, (i < lg_n ex_det)%nat /\ lg_pi ex_det i (lg_a ex_det i) (lg_pos ex_det i) = 1) /\
  rm_value (rewards ex_det) (actions ex_det) (policy ex_det) None = Ok (Fin 1).
Proof.
  split; [apply ex_det_accepted|]. split; [apply ex_det_pos|]. split.
  - exists 0%nat. simpl. split; [lia|reflexivity].
  - rewrite rm_value_ok by auto using ex_det_accepted, ex_det_pos. do 2 f_equal. unfold spec_rm, matched; simpl.
    destruct (Req_EM_T 1 1); [|lra]. destruct (Req_EM_T 0 1); [lra|].
    destruct (Req_EM_T _ 0); [lra|field].
Qed.

(** ** C25 *)
Theorem C25_bipw : forall l lam w arg,
  accepted l -> position_arg l arg ->
  (forall i, (i < lg_n l)%nat -> 0 <= w i) -> (match lam with Some x => 0 <= x | None => True end) ->
  0 < sumn (lg_n l) (fun i => clip lam (w i)) ->
  exists v,
    bipw_value (lam_num lam) (rewards l) (actions l) (policy l) (tabF (lg_n l) w) arg = Ok (Fin v) /\
    v = sumn (lg_n l) (fun i => clip lam (w i) * lg_r l i) / sumn (lg_n l) (fun i => clip lam (w i)) /\
    forall lo hi, bounded_by (lg_n l) (lg_r l) lo hi -> lo <= v <= hi.
Proof.
  intros l lam w arg Hacc Hpos Hw Hlam Hs. exists (spec_bipw lam w l).
  split; [apply bipw_value_ok; auto; lra|]. split; [reflexivity|].
  intros lo hi Hb. apply convex_bounds; auto. intros i Hi. destruct lam; simpl; auto.
  apply Rmin_glb; auto.
Qed.

Example C25_example : accepted ex_log /\ position_arg ex_log (Some (positions ex_log)) /\
  0 < sumn (lg_n ex_log) (fun i => clip (Some 1) (INR i)).
Proof.
  split; [apply ex_log_accepted|]. split; [apply ex_log_pos|]. simpl. unfold Rmin.
  repeat match goal with |- context [Rle_dec ?a ?b] => destruct (Rle_dec a b); try lra end.
Qed.

(** ** C26 *)
(** [same_value f l s]: the program [f] gives the same result on the log and on the log with its
    rounds reordered by [s]; stated for every log, including those on which an estimator
    returns NaN or an infinity. *)
Theorem C26_order_irrelevant : forall l s arg arg' use_est ps eps ps' eps' lam,
  accepted l -> is_reordering (lg_n l) s ->
  position_arg l arg -> position_arg (reorder s l) arg' ->
  pscore_arg l use_est ps eps -> pscore_arg (reorder s l) use_est ps' eps' ->
  let l' := reorder s l in
  rm_value (rewards l') (actions l') (policy l') arg' = rm_value (rewards l) (actions l) (policy l) arg /\
  dm_value (policy l') (model l') arg' = dm_value (policy l) (model l) arg /\
  ipw_value (lam_num lam) use_est (rewards l') (actions l') (policy l') ps' arg' eps'
  = ipw_value (lam_num lam) use_est (rewards l) (actions l) (policy l) ps arg eps /\
  snipw_value use_est (rewards l') (actions l') (policy l') ps' arg' eps'
  = snipw_value use_est (rewards l) (actions l) (policy l) ps arg eps /\
  sgipw_value (lam_num lam) use_est (rewards l') (actions l') (policy l') ps' arg' eps'
  = sgipw_value (lam_num lam) use_est (rewards l) (actions l) (policy l) ps arg eps /\
  dr_value (lam_num lam) use_est (rewards l') (actions l') (policy l') (model l') ps' arg' eps'
  = dr_value (lam_num lam) use_est (rewards l) (actions l) (policy l) (model l) ps arg eps /\
  sndr_value use_est (rewards l') (actions l') (policy l') (model l') ps' arg' eps'
  = sndr_value use_est (rewards l) (actions l) (policy l) (model l) ps arg eps /\
  switch_value (lam_num lam) use_est (rewards l') (actions l') (policy l') (model l') ps' arg' eps'
  = switch_value (lam_num lam) use_est (rewards l) (actions l) (policy l) (model l) ps arg eps /\
  dros_value (lam_num lam) use_est (rewards l') (actions l') (policy l') (model l') ps' arg' eps'
  = dros_value (lam_num lam) use_est (rewards l) (actions l) (policy l) (model l) ps arg eps /\
  sgdr_value (lam_num lam) use_est (rewards l') (actions l') (policy l') (model l') ps' arg' eps'
  = sgdr_value (lam_num lam) use_est (rewards l) (actions l) (policy l) (model l) ps arg eps.
Proof.
  intros l s arg arg' ue ps eps ps' eps' lam Hacc Hs Hp Hp' Hps Hps' l'.
  assert (Hacc' : accepted l') by (apply accepted_reorder; auto).
  assert (Hn : lg_n l' = lg_n l) by reflexivity.
  split.
  { rewrite !rm_value_ok by auto. do 2 f_equal. unfold spec_rm. rewrite Hn.
    rewrite (sumn_reorder (lg_n l) s (matched l) Hs : sumn (lg_n l) (matched l') = _).
    rewrite (sumn_reorder (lg_n l) s (fun i => matched l i * lg_r l i) Hs
             : sumn (lg_n l) (fun i => matched l' i * lg_r l' i) = _). reflexivity. }
  split.
  { rewrite !dm_value_ok by auto. do 2 f_equal. exact (avg_reorder (lg_n l) s (q_pi l) Hs). }
  split.
  { rewrite !ipw_value_ok by auto. do 2 f_equal.
    exact (avg_reorder (lg_n l) s (fun i => lg_r l i * clip lam (weight l i)) Hs). }
  split.
  { unfold snipw_value.
    rewrite (ipw_like_value_num _ _ l _ _ _ _ Hacc Hp Hps (snipw_round_num l Hacc)).
    rewrite (ipw_like_value_num _ _ l' _ _ _ _ Hacc' Hp' Hps' (snipw_round_num l' Hacc')).
    f_equal. rewrite Hn, (avg_reorder (lg_n l) s (weight l) Hs : avg (lg_n l) (weight l') = _).
    exact (nmean_reorder (lg_n l) s
      (fun i => ndiv (Fin (lg_r l i * weight l i)) (Fin (avg (lg_n l) (weight l)))) Hs). }
  split.
  { unfold sgipw_value.
    rewrite (ipw_like_value_num _ _ l _ _ _ _ Hacc Hp Hps (sgipw_round_num _ l Hacc)).
    rewrite (ipw_like_value_num _ _ l' _ _ _ _ Hacc' Hp' Hps' (sgipw_round_num _ l' Hacc')).
    f_equal. exact (nmean_reorder (lg_n l) s
      (fun i => nmul (sg_weight (lam_num lam) (Fin (weight l i))) (Fin (lg_r l i))) Hs). }
  split.
  { rewrite !dr_value_ok by auto. do 2 f_equal. unfold spec_dr. rewrite <- !dr_sum.
    exact (avg_reorder (lg_n l) s (fun i => q_pi l i + clip lam (weight l i) * (lg_r l i - q_at l i)) Hs). }
  split.
  { unfold sndr_value.
    rewrite (dr_like_value_num _ _ l _ _ _ _ Hacc Hp Hps (sndr_round_num l Hacc)).
    rewrite (dr_like_value_num _ _ l' _ _ _ _ Hacc' Hp' Hps' (sndr_round_num l' Hacc')).
    f_equal. rewrite Hn, (avg_reorder (lg_n l) s (weight l) Hs : avg (lg_n l) (weight l') = _).
    exact (nmean_reorder (lg_n l) s
      (fun i => nadd (Fin (q_pi l i))
         (ndiv (Fin (weight l i * (lg_r l i - q_at l i))) (Fin (avg (lg_n l) (weight l))))) Hs). }
  split.
  { rewrite !switch_value_ok by auto. do 2 f_equal. unfold spec_switch. rewrite <- !dr_sum.
    exact (avg_reorder (lg_n l) s (fun i => q_pi l i + match lam with
       | Some x => if Rle_dec (weight l i) x then weight l i else 0 | None => weight l i end
       * (lg_r l i - q_at l i)) Hs). }
  split.
  { unfold dros_value.
    rewrite (dr_like_value_num _ _ l _ _ _ _ Hacc Hp Hps (dros_round_num _ l Hacc)).
    rewrite (dr_like_value_num _ _ l' _ _ _ _ Hacc' Hp' Hps' (dros_round_num _ l' Hacc')).
    f_equal. exact (nmean_reorder (lg_n l) s
      (fun i => nadd (Fin (q_pi l i)) (nmul (os_weight (lam_num lam) (Fin (weight l i)))
         (Fin (lg_r l i - q_at l i)))) Hs). }
  { unfold sgdr_value.
    rewrite (dr_like_value_num _ _ l _ _ _ _ Hacc Hp Hps (sgdr_round_num _ l Hacc)).
    rewrite (dr_like_value_num _ _ l' _ _ _ _ Hacc' Hp' Hps' (sgdr_round_num _ l' Hacc')).
    f_equal. exact (nmean_reorder (lg_n l) s
      (fun i => nadd (Fin (q_pi l i)) (nmul (sg_weight (lam_num lam) (Fin (weight l i)))
         (Fin (lg_r l i - q_at l i)))) Hs). }
Qed.

Example C26_example : let s := fun i => nth i [2; 0; 1]%nat 0%nat in
  accepted ex_log /\ is_reordering (lg_n ex_log) s /\ rewards (reorder s ex_log) <> rewards ex_log.
Proof.
  split; [apply ex_log_accepted|]. split.
  - split; simpl; intros i; [intros Hi|intros j Hi Hj]; idx i; simpl; try lia; idx j; simpl; lia.
  - unfold rewards, tabF, tab; simpl. intros E. injection E as E. lra.
Qed.

Print Assumptions C10_ipw_value.
Print Assumptions C11_ipw_unbiased.
Print Assumptions C12_clipping.
Print Assumptions C13_snipw_value.
Print Assumptions C13_snipw_shift.
Print Assumptions C13_snipw_rescale.
Print Assumptions C14_snipw_nan.
Print Assumptions C15_dm_value.
Print Assumptions C16_dr_value.
Print Assumptions C16_dr_zero_model.
Print Assumptions C16_dr_is_dm.
Print Assumptions C17_dr_unbiased_true_pscore.
Print Assumptions C18_dr_unbiased_true_model.
Print Assumptions C19_sndr_value.
Print Assumptions C20_switch_limits.
Print Assumptions C21_dros_value.
Print Assumptions C22_dros_zero_lambda.
Print Assumptions C23_sub_gaussian.
Print Assumptions C24_replay.
Print Assumptions C25_bipw.
Print Assumptions C26_order_irrelevant.
