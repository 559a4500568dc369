(** * P_Robust: property C151 (exact bias of IPW, DM and DR with wrong propensities and wrong predictions) *)

From Coq Require Import Reals List ZArith Lia Lra.
From Verif Require Import Num NpList M_Utils M_Estimators S_Base S_Prob S_Estimators S_Env S_Tuning S_Bias S_Robust
  L_Num L_Base L_Prob L_Estimators L_Unbiased L_EstProps L_Examples S_Examples P_Estimators P_Bias L_Conc.
Import ListNotations.
Open Scope R_scope.

Section Robust.
  Context {X : Type} (e : benv X) (He : env_ok e).
  Variables (pt : X -> nat -> nat -> R) (qh : X -> nat -> nat -> R).
  Hypothesis (Hpt : usable e pt).

  Lemma error_term x s a : (a < ev_K e)%nat ->
    ev_pe e x a s / pt x s a * (q_true e x s a - qh x a s) * ev_pb e x s a + ev_pe e x a s * qh x a s =
    ev_pe e x a s * q_true e x s a + ev_pe e x a s * (propensity_error e pt x s a * model_error e qh x s a).
  Proof.
    intros Ha. unfold propensity_error, model_error. destruct (Req_EM_T (ev_pb e x s a) 0) as [E|E].
    - rewrite E. ring.
    - destruct (Rle_lt_or_eq_dec 0 _ (eo_pb0 e He x s a Ha)) as [Hb|Hz]; [|exfalso; auto]. pose proof (Hpt x s a Ha Hb). field. lra.
  Qed.

  Lemma dr_mean (f : list (X * nat * R) -> res num) :
    (forall o p, In (o, p) (log_dist e) -> p <> 0 -> f o = Ok (Fin (spec_dr None (log_of e pt qh o)))) ->
    expects (log_dist e) f (policy_value e + under_policy e (fun x s a => propensity_error e pt x s a * model_error e qh x s a)).
  Proof.
    intros Hf. exists (fun o => spec_dr None (log_of e pt qh o)). split; auto.
    set (G := fun (i : nat) (y : option (X * nat * R)) => match y with
         | Some (x, a, r) => sumn (ev_K e) (fun b => qh x b (ev_pos e i) * ev_pe e x b (ev_pos e i))
            + ev_pe e x a (ev_pos e i) / pt x (ev_pos e i) a * (r - qh x a (ev_pos e i))
         | None => 0 end).
    rewrite (expect_ext (log_dist e) _ (fun o => avg (ev_n e) (fun i => G i (nth_error o i)))).
    2:{ intros o p Ho Hp. unfold spec_dr. rewrite <- dr_sum. apply avg_ext. intros i Hi.
        destruct (L_Unbiased.In_dprod_opt _ _ _ _ Ho Hp i Hi) as ([[x a] r] & q & E & _ & _).
        rewrite (q_pi_log e He _ _ _ _ _ _ _ Hi E). unfold weight, q_at, G. cbn [clip].
        cbn [lg_r lg_q lg_pi lg_a lg_p lg_pos log_of]. rewrite E. reflexivity. }
    unfold log_dist. rewrite expect_dprod_avg_opt by (apply is_dist_round; auto).
    unfold policy_value, under_policy. rewrite <- avg_plus. apply avg_ext. intros i Hi. unfold G.
    rewrite (expect_round e i _ (fun x a r =>
            sumn (ev_K e) (fun b => qh x b (ev_pos e i) * ev_pe e x b (ev_pos e i))
            + ev_pe e x a (ev_pos e i) / pt x (ev_pos e i) a * (r - qh x a (ev_pos e i)))) by reflexivity.
    rewrite <- expect_plus. apply expect_ext_all. intros x.
    set (Q := sumn (ev_K e) (fun b => qh x b (ev_pos e i) * ev_pe e x b (ev_pos e i))).
    rewrite (sumn_ext _ _ (fun a => Q * ev_pb e x (ev_pos e i) a
        + (ev_pe e x a (ev_pos e i) * q_true e x (ev_pos e i) a + ev_pe e x a (ev_pos e i) * (propensity_error e pt x (ev_pos e i) a * model_error e qh x (ev_pos e i) a)
           - qh x a (ev_pos e i) * ev_pe e x a (ev_pos e i)))).
    - rewrite sumn_plus, sumn_scal, (eo_pb1 e He), sumn_minus, sumn_plus. fold Q. cbv zeta. lra.
    - intros a Ha. rewrite expect_plus, expect_const by (apply He).
      rewrite expect_scal, expect_minus, expect_const by (apply He). fold (q_true e x (ev_pos e i) a).
      pose proof (error_term x (ev_pos e i) a Ha). lra.
  Qed.
End Robust.

Lemma under_policy_ext {X} (e : benv X) f g : (forall x s a, (a < ev_K e)%nat -> ev_pe e x a s * f x s a = ev_pe e x a s * g x s a) ->
  under_policy e f = under_policy e g.
Proof. intros H. unfold under_policy. apply avg_ext. intros i Hi. apply expect_ext_all. intros x. apply sumn_ext. intros a Ha. apply H; auto. Qed.

Lemma under_policy_scal {X} (e : benv X) c f : under_policy e (fun x s a => c * f x s a) = c * under_policy e f.
Proof.
  unfold under_policy. rewrite <- avg_scal. apply avg_ext. intros i Hi. rewrite <- expect_scal. apply expect_ext_all. intros x. rewrite <- sumn_scal.
  apply sumn_ext. intros. cbv zeta. ring.
Qed.

(** ** C151 *)

(** DR, fed any usable propensities (logged or estimated) and any predictions, overshoots the policy value by the average over the
    evaluation policy of the product of the two errors. *)
Theorem C151_dr_bias : forall X (e : benv X) pt qh use_est ps eps arg, env_ok e -> usable e pt ->
  (forall o, position_arg (log_of e pt qh o) arg) -> (forall o, pscore_arg (log_of e pt qh o) use_est (ps o) (eps o)) ->
  expects (log_dist e)
    (fun o => let l := log_of e pt qh o in dr_value PInf use_est (rewards l) (actions l) (policy l) (model l) (ps o) arg (eps o))
    (policy_value e + under_policy e (fun x s a => propensity_error e pt x s a * model_error e qh x s a)).
Proof.
  intros X e pt qh use_est ps eps arg He Hpt Harg Hps. apply dr_mean; auto. intros o p Ho Hp. cbv zeta.
  apply (dr_value_ok None); auto. eapply accepted_log; eauto.
Qed.

(** IPW is DR with no predictions: its error is that of predicting 0. *)
Theorem C151_ipw_bias : forall X (e : benv X) pt qh use_est ps eps arg, env_ok e -> usable e pt ->
  (forall o, position_arg (log_of e pt qh o) arg) -> (forall o, pscore_arg (log_of e pt qh o) use_est (ps o) (eps o)) ->
  expects (log_dist e)
    (fun o => let l := log_of e pt qh o in ipw_value PInf use_est (rewards l) (actions l) (policy l) (ps o) arg (eps o))
    (policy_value e - under_policy e (fun x s a => propensity_error e pt x s a * q_true e x s a)).
Proof.
  intros X e pt qh use_est ps eps arg He Hpt Harg Hps.
  destruct (dr_mean e He pt (fun _ _ _ => 0) Hpt (fun o => Ok (Fin (spec_dr None (log_of e pt (fun _ _ _ => 0) o))))) as (g & Hg & Eg); [reflexivity|].
  exists g. split.
  - intros o p Ho Hp. cbv zeta. rewrite (ipw_value_ok None use_est _ arg (ps o) (eps o)); auto; [|eapply accepted_log; eauto].
    specialize (Hg o p Ho Hp). injection Hg as <-. do 2 f_equal. unfold spec_ipw, spec_dr. rewrite <- dr_sum. cbn [log_of lg_n]. apply avg_ext. intros i Hi.
    destruct (L_Unbiased.In_dprod_opt _ _ _ _ Ho Hp i Hi) as ([[x a] r] & q & E & _ & _).
    rewrite (q_pi_log e He _ _ _ _ _ _ _ Hi E). unfold weight, q_at. cbn [lg_r lg_q lg_pi lg_a lg_p lg_pos log_of clip]. rewrite E.
    rewrite (sumn_ext _ (fun b => 0 * _) (fun _ => 0)) by (intros; ring). rewrite sumn_0. ring.
  - rewrite Eg. rewrite (under_policy_ext e _ (fun x s a => -1 * (propensity_error e pt x s a * q_true e x s a))) by (intros; unfold model_error; ring).
    rewrite (under_policy_scal e (-1) (fun x s a => propensity_error e pt x s a * q_true e x s a)). ring.
Qed.

(** DM needs no propensities: its error is that of the predictions. *)
Theorem C151_dm_bias : forall X (e : benv X) pt qh arg, env_ok e -> usable e pt -> (forall o, position_arg (log_of e pt qh o) arg) ->
  expects (log_dist e) (fun o => let l := log_of e pt qh o in dm_value (policy l) (model l) arg)
    (policy_value e + under_policy e (model_error e qh)).
Proof.
  intros X e pt qh arg He Hpt Harg. exists (fun o => spec_dm (log_of e pt qh o)). split.
  - intros o p Ho Hp. cbv zeta. apply dm_value_ok; auto. eapply accepted_log; eauto.
  - set (G := fun (i : nat) (y : option (X * nat * R)) => match y with
         | Some (x, a, r) => sumn (ev_K e) (fun b => qh x b (ev_pos e i) * ev_pe e x b (ev_pos e i)) | None => 0 end).
    rewrite (expect_ext (log_dist e) _ (fun o => avg (ev_n e) (fun i => G i (nth_error o i)))).
    2:{ intros o p Ho Hp. unfold spec_dm. cbn [log_of lg_n]. apply avg_ext. intros i Hi.
        destruct (L_Unbiased.In_dprod_opt _ _ _ _ Ho Hp i Hi) as ([[x a] r] & q & E & _ & _).
        rewrite (q_pi_log e He _ _ _ _ _ _ _ Hi E). unfold G. rewrite E. reflexivity. }
    unfold log_dist. rewrite expect_dprod_avg_opt by (apply is_dist_round; auto).
    unfold policy_value, under_policy. rewrite <- avg_plus. apply avg_ext. intros i Hi. unfold G.
    rewrite (expect_round e i _ (fun x a r => sumn (ev_K e) (fun b => qh x b (ev_pos e i) * ev_pe e x b (ev_pos e i)))) by reflexivity.
    rewrite <- expect_plus. apply expect_ext_all. intros x. rewrite <- sumn_plus.
    rewrite (sumn_ext _ _ (fun a => sumn (ev_K e) (fun b => qh x b (ev_pos e i) * ev_pe e x b (ev_pos e i)) * ev_pb e x (ev_pos e i) a)) by (intros; rewrite expect_const by apply He; ring).
    rewrite sumn_scal, (eo_pb1 e He), Rmult_1_r. apply sumn_ext. intros a Ha. unfold model_error. ring.
Qed.

Lemma under_policy_0 {X} (e : benv X) f : env_ok e -> (forall x s a, (a < ev_K e)%nat -> ev_pe e x a s * f x s a = 0) -> under_policy e f = 0.
Proof.
  intros He H. unfold under_policy. rewrite (avg_ext _ _ (fun _ => 0)); [rewrite avg_const; [reflexivity|apply He]|]. intros i Hi.
  rewrite (expect_ext_all _ _ (fun _ => 0)); [apply expect_const; apply He; auto|]. intros x. rewrite (sumn_ext _ _ (fun _ => 0)); [apply sumn_0|]. intros a Ha. apply H; auto.
Qed.

(** Either error alone being zero removes the bias. *)
Theorem C151_doubly_robust : forall X (e : benv X) pt qh, env_ok e ->
  (forall x s a, (a < ev_K e)%nat -> 0 < ev_pe e x a s -> (0 < ev_pb e x s a /\ pt x s a = ev_pb e x s a) \/ qh x a s = q_true e x s a) ->
  under_policy e (fun x s a => propensity_error e pt x s a * model_error e qh x s a) = 0.
Proof.
  intros X e pt qh He H. apply under_policy_0; auto. intros x s a Ha.
  destruct (Rle_lt_or_eq_dec 0 _ (eo_pe0 e He x a s Ha)) as [Hp|Hz]; [|rewrite <- Hz; ring].
  destruct (H x s a Ha Hp) as [[Hb E]|E].
  - unfold propensity_error. destruct (Req_EM_T _ 0) as [Q|Q]; [lra|]. rewrite E. unfold Rdiv. rewrite Rinv_r by auto. ring.
  - unfold model_error. rewrite E. ring.
Qed.

(** The bias is at most the product of the errors: a bound on the propensities' times the average of the predictions'. *)
Theorem C151_product_bound : forall X (e : benv X) pt qh P, env_ok e ->
  (forall x s a, (a < ev_K e)%nat -> 0 < ev_pe e x a s -> Rabs (propensity_error e pt x s a) <= P) ->
  Rabs (under_policy e (fun x s a => propensity_error e pt x s a * model_error e qh x s a)) <= P * under_policy e (fun x s a => Rabs (model_error e qh x s a)).
Proof.
  intros X e pt qh P He HP. unfold under_policy. eapply Rle_trans; [apply avg_abs; apply He|]. rewrite <- avg_scal. apply avg_le; [apply He|]. intros i Hi.
  eapply Rle_trans; [apply expect_abs; apply He; auto|]. rewrite <- expect_scal. apply expect_le_supp; [apply He; auto|]. intros x p _ _.
  eapply Rle_trans; [apply sumn_abs|]. rewrite <- sumn_scal. apply sumn_le. intros a Ha. cbv zeta. set (s := ev_pos e i).
  rewrite !Rabs_mult, (Rabs_right (ev_pe e x a s)) by (apply Rle_ge, He; auto).
  destruct (Rle_lt_or_eq_dec 0 _ (eo_pe0 e He x a s Ha)) as [Hp|Hz]; [|rewrite <- Hz; lra].
  rewrite (Rmult_comm P), !Rmult_assoc. apply Rmult_le_compat_l; [lra|]. rewrite Rmult_comm. apply Rmult_le_compat_l; [apply Rabs_pos|]. apply HP; auto.
Qed.

(** With the true propensities but missing support, exactly the unlogged actions are at the mercy of the model; IPW values them at 0. *)
Theorem C151_deficient_support : forall X (e : benv X) qh, env_ok e ->
  usable e (ev_pb e) /\
  under_policy e (fun x s a => propensity_error e (ev_pb e) x s a * model_error e qh x s a) =
  under_policy e (fun x s a => if Req_EM_T (ev_pb e x s a) 0 then qh x a s - q_true e x s a else 0).
Proof.
  intros X e qh He. split; [intros x s a _ H; exact H|]. apply under_policy_ext. intros x s a Ha. f_equal. unfold propensity_error, model_error.
  destruct (Req_EM_T _ 0) as [E|E]; [ring|]. unfold Rdiv. rewrite Rinv_r by auto. ring.
Qed.

(** Propensities too large by a factor [c] divide the IPW estimate by [c]; DR goes that far from the model's value to the true one. *)
Theorem C151_scaled_propensities : forall X (e : benv X) qh c, env_ok e -> common_support e -> 0 < c ->
  let pt := fun x s a => c * ev_pb e x s a in
  usable e pt /\
  policy_value e - under_policy e (fun x s a => propensity_error e pt x s a * q_true e x s a) = policy_value e / c /\
  policy_value e + under_policy e (fun x s a => propensity_error e pt x s a * model_error e qh x s a) =
    1 / c * policy_value e + (1 - 1 / c) * (policy_value e + under_policy e (model_error e qh)).
Proof.
  intros X e qh c He Hcs Hc pt. split; [intros x s a _ H; apply Rmult_lt_0_compat; auto|].
  assert (S : forall f, under_policy e (fun x s a => propensity_error e pt x s a * f x s a) = (1 - 1 / c) * under_policy e f).
  { intros f. rewrite (under_policy_ext e _ (fun x s a => (1 - 1 / c) * f x s a)).
    - apply under_policy_scal.
    - intros x s a Ha. destruct (Rle_lt_or_eq_dec 0 _ (eo_pe0 e He x a s Ha)) as [Hp|Hz]; [|rewrite <- Hz; ring].
      pose proof (Hcs x a s Ha Hp). unfold propensity_error, pt. destruct (Req_EM_T _ 0); [lra|]. field. lra. }
  rewrite (S (fun x s a => q_true e x s a)), (S (model_error e qh)). change (under_policy e (fun x s a => q_true e x s a)) with (policy_value e). split; field; lra.
Qed.

Example C151_cases :
  env_ok ex_env /\ usable ex_env (fun _ _ _ => 1 / 2) /\ (forall qh o, position_arg (log_of ex_env (fun _ _ _ => 1 / 2) qh o) None) /\
  (forall qh o, pscore_arg (log_of ex_env (fun _ _ _ => 1 / 2) qh o) true None (Some (pscores (log_of ex_env (fun _ _ _ => 1 / 2) qh o)))) /\
  under_policy ex_env (fun x s a => propensity_error ex_env (fun _ _ _ => 1 / 2) x s a * model_error ex_env (fun _ _ _ => 0) x s a) <> 0.
Proof.
  split; [apply ex_env_ok|]. split; [intros x s a _ _; lra|]. split; [intros; apply ex_env_pos|]. split; [reflexivity|].
  unfold under_policy, propensity_error, model_error, q_true, avg. simpl.
  repeat match goal with |- context [Req_EM_T ?x ?y] => destruct (Req_EM_T x y); try lra end.
Qed.

Print Assumptions C151_dr_bias.
Print Assumptions C151_ipw_bias.
Print Assumptions C151_dm_bias.
Print Assumptions C151_doubly_robust.
Print Assumptions C151_product_bound.
Print Assumptions C151_deficient_support.
Print Assumptions C151_scaled_propensities.
