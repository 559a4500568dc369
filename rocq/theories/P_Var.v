(** * P_Var: which reward model minimises the mean squared error of DR (C135). *)

From Coq Require Import Reals List ZArith Lia Lra Bool.
From Verif Require Import Num NpList M_Utils M_Estimators M_Tuning S_Base S_Prob S_Estimators S_Env S_Tuning S_Bias S_Conc
  L_Num L_Base L_Prob L_Estimators L_EstProps L_Unbiased L_Conc L_Conc3 L_Tuning S_Examples L_Examples P_Tuning P_Bias P_Risk.
Import ListNotations.
Open Scope R_scope.

(** Average, over rounds and contexts, of the conditional variance (given the context) of the weighted error of the model. *)
Definition model_noise {X} (e : benv X) (qh : X -> nat -> nat -> R) : R :=
  avg (ev_n e) (fun i => expect (ev_ctx e i) (fun x => let s := ev_pos e i in
    let err a := ev_pe e x a s / ev_pb e x s a * (q_true e x s a - qh x a s) in
    let m := sumn (ev_K e) (fun a => ev_pb e x s a * err a) in
    sumn (ev_K e) (fun a => ev_pb e x s a * ((err a - m) * (err a - m))))).

Section Var.
  Context {X : Type} (e : benv X) (He : env_ok e) (Hcs : common_support e).

  Lemma noise_round qh i : (i < ev_n e)%nat ->
    let qs := fun x a s => q_true e x s a in
    round_var e (round_value e true qh Clipping None) i = round_var e (round_value e true qs Clipping None) i
      + expect (ev_ctx e i) (fun x => let s := ev_pos e i in
          let err a := ev_pe e x a s / ev_pb e x s a * (q_true e x s a - qh x a s) in
          let m := sumn (ev_K e) (fun a => ev_pb e x s a * err a) in
          sumn (ev_K e) (fun a => ev_pb e x s a * ((err a - m) * (err a - m)))).
  Proof.
    intros Hi qs. match goal with |- _ = _ + ?z => set (Z := z) end. pose proof (is_dist_round e He i Hi) as Hd. set (s := ev_pos e i).
    set (Q := fun (f : X -> nat -> nat -> R) x => sumn (ev_K e) (fun b => f x b s * ev_pe e x b s)).
    set (err := fun x a => ev_pe e x a s / ev_pb e x s a * (q_true e x s a - qh x a s)).
    assert (Em : forall x, sumn (ev_K e) (fun a => ev_pb e x s a * err x a) = Q qs x - Q qh x).
    { intros x. unfold Q. rewrite <- sumn_minus. apply sumn_ext. intros a Ha. unfold err, qs. fold (true_weight e x s a).
      rewrite <- Rmult_assoc, weight_cancels by auto. ring. }
    set (D := fun (y : X * nat * R) => let '(x, a, _) := y in err x a - (Q qs x - Q qh x)).
    assert (Ev : forall y, round_value e true qh Clipping None i y = round_value e true qs Clipping None i y + D y).
    { intros [[x a] r]. unfold round_value, D, err, Q, qs. cbn [modified clip]. fold s. unfold true_weight. ring. }
    assert (Ed : forall (h : X -> R), expect (round_dist e i) (fun y => let '(x, a, r) := y in h x * D y) = 0).
    { intros h. rewrite (expect_round e i _ (fun x a r => h x * (err x a - (Q qs x - Q qh x)))) by reflexivity.
      rewrite (expect_ext_all _ _ (fun _ => 0)); [apply expect_const; apply He; auto|]. intros x.
      rewrite (sumn_ext _ _ (fun a => h x * (ev_pb e x s a * err x a) - h x * (Q qs x - Q qh x) * ev_pb e x s a)).
      2:{ intros a Ha. rewrite expect_const by (apply He). fold s. ring. }
      rewrite sumn_minus, !sumn_scal, Em, (eo_pb1 e He). ring. }
    assert (E1 : expect (round_dist e i) D = 0).
    { rewrite <- (Ed (fun _ => 1)). apply expect_ext_all. intros [[x a] r]. ring. }
    assert (Ex : expect (round_dist e i) (fun y => round_value e true qs Clipping None i y * D y) = 0).
    { rewrite (expect_round e i _ (fun x a r => (Q qs x + true_weight e x s a * (r - qs x a s)) * (err x a - (Q qs x - Q qh x)))).
      2:{ intros x a r. unfold round_value, D. cbn [modified clip]. fold s. reflexivity. }
      rewrite <- (Ed (Q qs)). rewrite (expect_round e i (fun y => let '(x, a, r) := y in Q qs x * D y) (fun x a r => Q qs x * (err x a - (Q qs x - Q qh x)))) by reflexivity.
      apply expect_ext_all. intros x. apply sumn_ext. intros a Ha. f_equal. fold s.
      rewrite expect_scal_r, expect_plus, expect_scal, expect_minus, !expect_const by (apply He). change (expect (ev_rd e x s a) (fun r => r)) with (qs x a s). ring. }
    unfold round_var.
    assert (Mm : round_mean e (round_value e true qh Clipping None) i = round_mean e (round_value e true qs Clipping None) i).
    { unfold round_mean. rewrite (expect_ext_all _ _ _ Ev), expect_plus, E1. ring. }
    rewrite Mm. set (mu := round_mean e (round_value e true qs Clipping None) i).
    rewrite (expect_ext_all _ (fun y => (round_value e true qh Clipping None i y - mu) * _) (fun y =>
       (round_value e true qs Clipping None i y - mu) * (round_value e true qs Clipping None i y - mu)
       + 2 * (round_value e true qs Clipping None i y * D y) - 2 * mu * D y + D y * D y)) by (intros y; rewrite Ev; ring).
    rewrite expect_plus, expect_minus, expect_plus, !expect_scal, Ex, E1.
    replace (expect (round_dist e i) (fun y => D y * D y)) with Z; [ring|]. symmetry. unfold Z.
    rewrite (expect_round e i (fun y => D y * D y) (fun x a r => (err x a - (Q qs x - Q qh x)) * (err x a - (Q qs x - Q qh x)))) by reflexivity.
    apply expect_ext_all. intros x. cbv zeta. fold s. apply sumn_ext. intros a Ha. rewrite expect_const by (apply He). rewrite <- (Em x). unfold err. ring.
  Qed.

  Lemma noise_nonneg qh : 0 <= model_noise e qh.
  Proof.
    unfold model_noise. rewrite <- (avg_const (ev_n e) 0) by apply He. apply avg_le; [apply He|]. intros i Hi. apply expect_pos; [apply He; auto|].
    intros x p _ _. cbv zeta. apply sumn_nonneg. intros a Ha. apply Rmult_le_pos; [apply He; auto|apply Rle_0_sqr].
  Qed.
End Var.

(** The mean squared error of DR with any reward model is that with the true expected rewards, plus the noise of the
    model's error divided by n; plain IPW is the case of the zero model. *)
Theorem C135_dr_mse : forall X (e : benv X) qh arg, env_ok e -> common_support e ->
  (forall q o, position_arg (log_of e (ev_pb e) q o) arg) ->
  let qs := fun x a s => q_true e x s a in
  exists dr best ipw : list (X * nat * R) -> R,
    (forall o p, In (o, p) (log_dist e) -> p <> 0 ->
       (let l := log_of e (ev_pb e) qh o in
        dr_value PInf false (rewards l) (actions l) (policy l) (model l) (Some (pscores l)) arg None = Ok (Fin (dr o))) /\
       (let l := log_of e (ev_pb e) qs o in
        dr_value PInf false (rewards l) (actions l) (policy l) (model l) (Some (pscores l)) arg None = Ok (Fin (best o))) /\
       (let l := log_of e (ev_pb e) qs o in
        ipw_value PInf false (rewards l) (actions l) (policy l) (Some (pscores l)) arg None = Ok (Fin (ipw o)))) /\
    let mse est := expect (log_dist e) (fun o => (est o - policy_value e) * (est o - policy_value e)) in
    mse dr = mse best + model_noise e qh / INR (ev_n e) /\
    mse ipw = mse best + model_noise e (fun _ _ _ => 0) / INR (ev_n e) /\
    mse best <= mse dr.
Proof.
  intros X e qh arg He Hcs Harg qs. assert (Hn : (0 < ev_n e)%nat) by apply He. assert (HN : 0 < INR (ev_n e)) by (apply lt_0_INR; auto).
  assert (K : forall q t, t = T_DR \/ t = T_IPW -> exists est, (forall o p, In (o, p) (log_dist e) -> p <> 0 -> let l := log_of e (ev_pb e) q o in
      base_value t PInf false (mkTinput (rewards l) (actions l) (policy l) (if uses_model t then Some (model l) else None) (Some (pscores l)) arg None) = Ok (Fin (est o))) /\
      expect (log_dist e) (fun o => (est o - policy_value e) * (est o - policy_value e)) = avg (ev_n e) (round_var e (round_value e (uses_model t) q Clipping None)) / INR (ev_n e)).
  { intros q t Ht. destruct (C133_expected_score X e q t None arg 0 He Hcs) as (est & sc & H1 & H2 & _); [destruct Ht as [->| ->]; easy|auto|].
    assert (Em : kind_modifier t = Clipping) by (destruct Ht as [->| ->]; reflexivity). rewrite Em in H2.
    exists est. split; [intros o p Ho Hp; apply (H1 o p Ho Hp)|]. cbv zeta in H2. rewrite H2.
    rewrite (lost_0 e _ _ Clipping None He); [ring|]. intros. cbn [modified clip]. ring. }
  destruct (K qh T_DR (or_introl eq_refl)) as (dr & D1 & D2). destruct (K qs T_DR (or_introl eq_refl)) as (best & B1 & B2).
  destruct (K qs T_IPW (or_intror eq_refl)) as (ipw & I1 & I2). exists dr, best, ipw. split.
  { intros o p Ho Hp. split; [apply (D1 o p Ho Hp)|]. split; [apply (B1 o p Ho Hp)|apply (I1 o p Ho Hp)]. }
  intros mse. unfold mse. rewrite D2, B2, I2. cbn [uses_model].
  assert (N : forall q, avg (ev_n e) (round_var e (round_value e true q Clipping None)) = avg (ev_n e) (round_var e (round_value e true qs Clipping None)) + model_noise e q).
  { intros q. unfold model_noise. rewrite <- avg_plus. apply avg_ext. intros i Hi. apply (noise_round e He Hcs q i Hi). }
  pose proof (noise_nonneg e He qh) as Hpos. rewrite (N qh).
  split; [field; lra|]. split.
  - replace (avg (ev_n e) (round_var e (round_value e false qs Clipping None))) with (avg (ev_n e) (round_var e (round_value e true (fun _ _ _ => 0) Clipping None))).
    + rewrite (N (fun _ _ _ => 0)). field. lra.
    + apply avg_ext. intros i Hi. unfold round_var, round_mean.
      assert (E0 : forall y, round_value e true (fun _ _ _ => 0) Clipping None i y = round_value e false qs Clipping None i y).
      { intros [[x a] r]. unfold round_value. rewrite (sumn_ext _ (fun b => 0 * _) (fun _ => 0)) by (intros; ring). rewrite sumn_0. reflexivity. }
      rewrite (expect_ext_all _ _ _ E0). apply expect_ext_all. intros y. rewrite E0. reflexivity.
  - unfold Rdiv. rewrite Rmult_plus_distr_r. assert (0 <= model_noise e qh * / INR (ev_n e)) by (apply Rmult_le_pos; [auto|left; apply Rinv_0_lt_compat; auto]). lra.
Qed.

(** In the example environment the zero model (plain IPW) is strictly noisier than the true expected rewards. *)
Example C135_case : env_ok ex_env /\ common_support ex_env /\ (forall q o, position_arg (log_of ex_env (ev_pb ex_env) q o) None) /\
  model_noise ex_env (fun _ _ _ => 0) = 1 / 36.
Proof.
  split; [apply ex_env_ok|]. split; [apply ex_env_support|]. split; [intros q o; apply ex_env_pos|].
  unfold model_noise, avg, q_true. simpl. replace (0 / 0) with 0 by (unfold Rdiv; ring). field.
Qed.

Print Assumptions C135_dr_mse.
