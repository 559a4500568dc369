(** * P_Bias: exact bias of the estimators with modified importance weights (C132). *)

From Coq Require Import Reals List ZArith Lia Lra Bool.
From Verif Require Import Num NpList M_Utils M_Estimators M_Tuning S_Base S_Prob S_Estimators S_Env S_Tuning S_Bias S_Conc
  L_Num L_Base L_Prob L_Estimators L_EstProps L_Unbiased L_Conc L_Tuning S_Examples L_Examples P_Tuning.
Import ListNotations.
Open Scope R_scope.

Lemma policy_log {X} (e : benv X) pt qh o p : env_ok e -> In (o, p) (log_dist e) -> p <> 0 -> is_policy (log_of e pt qh o).
Proof.
  intros He Ho Hp. constructor; [intros i a s Hi Ha Hs|intros i s Hi Hs];
    destruct (In_dprod_opt _ _ _ _ Ho Hp i Hi) as ([[x b] r] & q & E & _ & _); cbn [lg_pi lg_pos log_of lg_K]; rewrite E; apply He; auto.
Qed.

Lemma weight_cancels {X} (e : benv X) x s a : env_ok e -> common_support e -> (a < ev_K e)%nat ->
  ev_pb e x s a * true_weight e x s a = ev_pe e x a s.
Proof.
  intros He Hcs Ha. unfold true_weight. destruct (Rle_lt_or_eq_dec 0 _ (eo_pe0 e He x a s Ha)) as [Hpos|Hz].
  - pose proof (Hcs x a s Ha Hpos). field. lra.
  - rewrite <- Hz. unfold Rdiv. lra.
Qed.

(** Expectation of an average of per-round quantities of the log. *)
Lemma expect_log_avg {X} (e : benv X) (g : list (X * nat * R) -> R) (f : nat -> X -> nat -> R -> R) : env_ok e ->
  (forall o (p : R), In (o, p) (log_dist e) -> p <> 0 ->
     g o = avg (ev_n e) (fun i => match nth_error o i with Some (x, a, r) => f i x a r | None => 0 end)) ->
  expect (log_dist e) g = avg (ev_n e) (fun i => expect (ev_ctx e i) (fun x => sumn (ev_K e) (fun a =>
    expect (ev_rd e x (ev_pos e i) a) (f i x a) * ev_pb e x (ev_pos e i) a))).
Proof.
  intros He Hg. rewrite (expect_ext _ _ _ Hg). unfold log_dist.
  rewrite (expect_dprod_avg_opt _ _ (fun i y => match y with Some (x, a, r) => f i x a r | None => 0 end)) by (apply is_dist_round; auto).
  apply avg_ext. intros i Hi. apply (expect_round e i _ (f i)). reflexivity.
Qed.

(** ** The expected value of every tuned estimator at a fixed hyper-parameter *)
Theorem C132_exact_bias : forall X (e : benv X) qh t lam arg, env_ok e -> common_support e -> regular (kind_modifier t) lam ->
  (forall o, position_arg (log_of e (ev_pb e) qh o) arg) ->
  expects (log_dist e)
    (fun o => let l := log_of e (ev_pb e) qh o in
       base_value t (lam_num lam) false
         (mkTinput (rewards l) (actions l) (policy l) (if uses_model t then Some (model l) else None) (Some (pscores l)) arg None))
    (policy_value e - lost_value e (uses_model t) qh (kind_modifier t) lam).
Proof.
  intros X e qh t lam arg He Hcs Hr Harg. set (dr := uses_model t). set (m := kind_modifier t) in *.
  exists (fun o => spec_value dr m lam (log_of e (ev_pb e) qh o)). split.
  { intros o p Ho Hp. cbv zeta. apply (base_value_ok t lam false); auto.
    - eapply accepted_log; eauto.
    - eapply policy_log; eauto.
    - reflexivity. }
  set (Q := fun i x => if dr then sumn (ev_K e) (fun b => qh x b (ev_pos e i) * ev_pe e x b (ev_pos e i)) else 0).
  rewrite (expect_log_avg e _ (fun i x a r => Q i x + modified m lam (true_weight e x (ev_pos e i) a) * (r - (if dr then qh x a (ev_pos e i) else 0))) He).
  2:{ intros o p Ho Hp. unfold spec_value, contribution. cbn [lg_n log_of]. apply avg_ext. intros i Hi.
      destruct (In_dprod_opt _ _ _ _ Ho Hp i Hi) as ([[x a] r] & q & E & _ & _).
      rewrite (q_pi_log e He _ _ _ _ _ _ _ Hi E). unfold weight, residual, q_at, Q, true_weight.
      cbn [lg_r lg_q lg_pi lg_a lg_p lg_pos log_of]. rewrite E. destruct dr; [reflexivity|]. rewrite Rminus_0_r. reflexivity. }
  unfold policy_value, lost_value, avg, Rdiv. rewrite <- Rmult_minus_distr_r, <- sumn_minus. f_equal. apply sumn_ext. intros i Hi.
  rewrite <- expect_minus. apply expect_ext_all. intros x. cbv zeta.
  set (s := ev_pos e i).
  rewrite (sumn_ext _ _ (fun a => Q i x * ev_pb e x s a + (ev_pe e x a s * q_true e x s a
      - ev_pb e x s a * (true_weight e x s a - modified m lam (true_weight e x s a)) * unexplained e dr qh x s a
      - (if dr then qh x a s * ev_pe e x a s else 0)))).
  - rewrite sumn_plus, sumn_scal, (eo_pb1 e He), !sumn_minus. unfold Q. fold s. destruct dr; [lra|rewrite sumn_0; lra].
  - intros a Ha. rewrite expect_plus, expect_const by (apply He).
    rewrite expect_scal, expect_minus, expect_const by (apply He). fold (q_true e x s a).
    pose proof (weight_cancels e x s a He Hcs Ha) as Hw. unfold unexplained.
    rewrite <- Hw. destruct dr; ring.
Qed.

(** ** How large the bias can be *)
Lemma lost_0 {X} (e : benv X) dr qh m lam : env_ok e ->
  (forall x s a, (a < ev_K e)%nat -> ev_pb e x s a * (true_weight e x s a - modified m lam (true_weight e x s a)) * unexplained e dr qh x s a = 0) ->
  lost_value e dr qh m lam = 0.
Proof.
  intros He H. unfold lost_value. rewrite (avg_ext _ _ (fun _ => 0)); [rewrite avg_const; [reflexivity|apply He]|].
  intros i Hi. rewrite (expect_ext_all _ _ (fun _ => 0)); [apply expect_const; apply He; auto|].
  intros x. rewrite (sumn_ext _ _ (fun _ => 0)); [apply sumn_0|]. intros a Ha. apply H; auto.
Qed.

(** A correct reward model removes the bias, whatever the hyper-parameter. *)
Theorem C132_correct_model : forall X (e : benv X) m lam, env_ok e -> lost_value e true (fun x a s => q_true e x s a) m lam = 0.
Proof. intros X e m lam He. apply lost_0; auto. intros. unfold unexplained. ring. Qed.

Lemma expect_abs {A} (d : dist A) f : is_dist d -> Rabs (expect d f) <= expect d (fun a => Rabs (f a)).
Proof.
  intros Hd. apply Rabs_le. split.
  - replace (- expect d (fun a => Rabs (f a))) with (expect d (fun a => -1 * Rabs (f a))) by (rewrite expect_scal; lra).
    apply expect_le_supp; auto. intros a p _ _. pose proof (Rle_abs (- f a)) as H. rewrite Rabs_Ropp in H. lra.
  - apply expect_le_supp; auto. intros. apply Rle_abs.
Qed.
Lemma avg_abs n f : (0 < n)%nat -> Rabs (avg n f) <= avg n (fun i => Rabs (f i)).
Proof.
  intros Hn. unfold avg, Rdiv. assert (0 < / INR n) by (apply Rinv_0_lt_compat, lt_0_INR; auto).
  rewrite Rabs_mult, (Rabs_right (/ INR n)) by lra. apply Rmult_le_compat_r; [lra|apply sumn_abs].
Qed.

Theorem C132_bias_bound : forall X (e : benv X) dr qh m lam M, env_ok e ->
  (forall x s a, (a < ev_K e)%nat -> Rabs (unexplained e dr qh x s a) <= M) ->
  Rabs (lost_value e dr qh m lam) <= M * weight_change e m lam.
Proof.
  intros X e dr qh m lam M He HM. unfold lost_value, weight_change. eapply Rle_trans; [apply avg_abs; apply He|].
  rewrite <- avg_scal. apply avg_le; [apply He|]. intros i Hi. eapply Rle_trans; [apply expect_abs; apply He; auto|].
  rewrite <- expect_scal. apply expect_le_supp; [apply He; auto|]. intros x p _ _. eapply Rle_trans; [apply sumn_abs|].
  rewrite <- sumn_scal. apply sumn_le. intros a Ha. cbv zeta. rewrite !Rabs_mult, (Rabs_right (ev_pb _ _ _ _)) by (apply Rle_ge, He; auto).
  specialize (HM x (ev_pos e i) a Ha). pose proof (eo_pb0 e He x (ev_pos e i) a Ha).
  rewrite (Rmult_comm M). apply Rmult_le_compat_l; auto. apply Rmult_le_pos; auto. apply Rabs_pos.
Qed.

Lemma true_weight_nonneg {X} (e : benv X) x s a : env_ok e -> (a < ev_K e)%nat -> 0 < ev_pb e x s a -> 0 <= true_weight e x s a.
Proof. intros He Ha Hb. unfold true_weight, Rdiv. apply Rmult_le_pos; [apply He; auto|]. left. apply Rinv_0_lt_compat; auto. Qed.

Lemma change_le {X} (e : benv X) m lam W c : env_ok e -> common_support e -> weights_at_most e W -> 0 <= c ->
  (forall w, 0 <= w <= W -> Rabs (w - modified m lam w) <= c * w) -> weight_change e m lam <= c.
Proof.
  intros He Hcs HW Hc H. unfold weight_change. rewrite <- (avg_const (ev_n e) c) by apply He. apply avg_le; [apply He|]. intros i Hi.
  rewrite <- (expect_const (ev_ctx e i) c) by (apply He; auto). apply expect_le_supp; [apply He; auto|]. intros x p _ _.
  replace c with (c * sumn (ev_K e) (fun a => ev_pe e x a (ev_pos e i))) by (rewrite (eo_pe1 e He); ring).
  rewrite <- sumn_scal. apply sumn_le. intros a Ha. cbv zeta. set (s := ev_pos e i).
  rewrite <- (weight_cancels e x s a He Hcs Ha). destruct (Rle_lt_or_eq_dec 0 _ (eo_pb0 e He x s a Ha)) as [Hb|Hz].
  - replace (c * (ev_pb e x s a * true_weight e x s a)) with (ev_pb e x s a * (c * true_weight e x s a)) by ring.
    apply Rmult_le_compat_l; [lra|]. apply H. split; [apply true_weight_nonneg; auto|apply HW; auto].
  - rewrite <- Hz. lra.
Qed.

(** Clipping and switching above the largest weight: no bias at all. *)
Theorem C132_large_threshold : forall X (e : benv X) dr qh m lam W, env_ok e -> m = Clipping \/ m = Switching ->
  weights_at_most e W -> (forall x, lam = Some x -> W <= x) -> lost_value e dr qh m lam = 0.
Proof.
  intros X e dr qh m lam W He Hm HW Hl. apply lost_0; auto. intros x s a Ha.
  destruct (Rle_lt_or_eq_dec 0 _ (eo_pb0 e He x s a Ha)) as [Hb|Hz]; [|rewrite <- Hz; ring].
  specialize (HW x s a Ha Hb). replace (modified m lam (true_weight e x s a)) with (true_weight e x s a); [ring|].
  destruct lam as [y|]; [|destruct Hm as [->| ->]; reflexivity]. specialize (Hl y eq_refl).
  destruct Hm as [->| ->]; cbn; [rewrite Rmin_left by lra; reflexivity|destruct (Rle_dec _ y); [reflexivity|lra]].
Qed.

(** Optimistic shrinkage: the bias vanishes like 1 / lambda. *)
Theorem C132_shrinkage_rate : forall X (e : benv X) dr qh lam W M, env_ok e -> common_support e -> weights_at_most e W -> 0 < lam ->
  (forall x s a, (a < ev_K e)%nat -> Rabs (unexplained e dr qh x s a) <= M) -> 0 <= M ->
  Rabs (lost_value e dr qh Shrinkage (Some lam)) <= M * (W * W / lam).
Proof.
  intros X e dr qh lam W M He Hcs HW Hl HM HM0. eapply Rle_trans; [apply C132_bias_bound; eauto|]. apply Rmult_le_compat_l; auto.
  apply (change_le e Shrinkage (Some lam) W); auto.
  - unfold Rdiv. apply Rmult_le_pos; [apply Rle_0_sqr|left; apply Rinv_0_lt_compat; auto].
  - intros w Hw. cbn. assert (Hsq : 0 <= w * w) by apply Rle_0_sqr.
    replace (w - lam * w / (w * w + lam)) with (w * (w * w / (w * w + lam))) by (field; lra).
    rewrite Rabs_right.
    + rewrite (Rmult_comm (W * W / lam)). apply Rmult_le_compat_l; [lra|]. unfold Rdiv. apply Rmult_le_compat; [auto| |nra|].
      * left. apply Rinv_0_lt_compat. lra.
      * apply Rinv_le_contravar; lra.
    + apply Rle_ge. apply Rmult_le_pos; [lra|]. unfold Rdiv. apply Rmult_le_pos; auto. left. apply Rinv_0_lt_compat. lra.
Qed.

(** Sub-Gaussian shrinkage: the bias vanishes linearly in lambda. *)
Theorem C132_subgaussian_rate : forall X (e : benv X) dr qh lam W M, env_ok e -> common_support e -> weights_at_most e W -> 0 <= lam < 1 ->
  (forall x s a, (a < ev_K e)%nat -> Rabs (unexplained e dr qh x s a) <= M) -> 0 <= M ->
  Rabs (lost_value e dr qh SubGaussian (Some lam)) <= M * (lam / (1 - lam) * Rmax 1 W).
Proof.
  intros X e dr qh lam W M He Hcs HW Hl HM HM0. eapply Rle_trans; [apply C132_bias_bound; eauto|]. apply Rmult_le_compat_l; auto.
  assert (H0 : 0 <= lam / (1 - lam)) by (unfold Rdiv; apply Rmult_le_pos; [lra|left; apply Rinv_0_lt_compat; lra]).
  assert (H1 : 1 <= Rmax 1 W) by apply Rmax_l. assert (H2 : W <= Rmax 1 W) by apply Rmax_r.
  apply (change_le e SubGaussian (Some lam) W); auto; [apply Rmult_le_pos; lra|].
  intros w Hw. cbn. assert (Hd : 1 - lam <= 1 - lam + lam * w) by nra.
  replace (w - w / (1 - lam + lam * w)) with (lam / (1 - lam + lam * w) * (w - 1) * w) by (field; lra).
  rewrite !Rabs_mult, (Rabs_right w) by lra. apply Rmult_le_compat_r; [lra|]. apply Rmult_le_compat; try apply Rabs_pos.
  - rewrite Rabs_right.
    + unfold Rdiv. apply Rmult_le_compat_l; [lra|]. apply Rinv_le_contravar; lra.
    + apply Rle_ge. unfold Rdiv. apply Rmult_le_pos; [lra|left; apply Rinv_0_lt_compat; lra].
  - apply Rabs_le. lra.
Qed.

(** Clipping, switching and optimistic shrinkage never overestimate on average when the unexplained reward is nonnegative. *)
Theorem C132_pessimistic : forall X (e : benv X) dr qh m lam, env_ok e -> m <> SubGaussian -> regular m lam ->
  (forall x s a, (a < ev_K e)%nat -> 0 <= unexplained e dr qh x s a) -> 0 <= lost_value e dr qh m lam.
Proof.
  intros X e dr qh m lam He Hm Hr Hu. unfold lost_value. rewrite <- (avg_const (ev_n e) 0) by apply He. apply avg_le; [apply He|].
  intros i Hi. apply expect_pos; [apply He; auto|]. intros x p _ _. apply sumn_nonneg. intros a Ha. cbv zeta. set (s := ev_pos e i).
  apply Rmult_le_pos; [|apply Hu; auto]. destruct (Rle_lt_or_eq_dec 0 _ (eo_pb0 e He x s a Ha)) as [Hb|Hz]; [|rewrite <- Hz; lra].
  apply Rmult_le_pos; [lra|]. pose proof (true_weight_nonneg e x s a He Ha Hb) as Hw. set (w := true_weight e x s a) in *.
  destruct m, lam as [y|]; cbn in *; try lra; try easy.
  - pose proof (Rmin_l w y). lra.
  - destruct (Rle_dec w y); lra.
  - assert (0 <= w * w) by apply Rle_0_sqr. replace (w - y * w / (w * w + y)) with (w * (w * w / (w * w + y))) by (field; lra).
    apply Rmult_le_pos; auto. unfold Rdiv. apply Rmult_le_pos; auto. left. apply Rinv_0_lt_compat. lra.
Qed.

(** ... but sub-Gaussian shrinkage raises the weights below 1 and can overestimate. *)
Theorem C132_subgaussian_not_pessimistic : exists (e : benv bool) qh lam, env_ok e /\ common_support e /\ 0 < lam < 1 /\
  (forall x s a, (a < ev_K e)%nat -> 0 <= unexplained e true qh x s a) /\ lost_value e true qh SubGaussian (Some lam) < 0.
Proof.
  exists ex_env, (fun (x : bool) (a _ : nat) => if x then nth a [1/2; 0] 0 else 0), (1/2).
  split; [apply ex_env_ok|]. split; [apply ex_env_support|]. split; [lra|]. split.
  - intros x s a Ha. unfold unexplained, q_true. cbn in *. destruct x; idx a; simpl; try lia; lra.
  - unfold lost_value, avg, unexplained, q_true, true_weight. simpl. lra.
Qed.

(** ** The bias reported by the library's helper *)
(** The average the helper takes the absolute value of is an unbiased estimate of the lost value; the reported bias is
    therefore at least the true one on average. *)
Theorem C132_reported_bias : forall X (e : benv X) (qh : X -> nat -> nat -> R) (dr : bool) m lam, env_ok e ->
  exists g : list (X * nat * R) -> R, (forall o (p : R), In (o, p) (log_dist e) -> p <> 0 ->
       let l := log_of e (ev_pb e) qh o in
       estimate_bias_in_ope (rewards l) (tabF (lg_n l) (fun i => lg_pi l i (lg_a l i) (lg_pos l i) / lg_p l i))
         (tabF (lg_n l) (fun i => modified m lam (lg_pi l i (lg_a l i) (lg_pos l i) / lg_p l i)))
         (if dr then Some (tabF (lg_n l) (fun i => lg_q l i (lg_a l i) (lg_pos l i))) else None) = Ok (Fin (Rabs (g o)))) /\
    expect (log_dist e) g = lost_value e dr qh m lam /\
    Rabs (lost_value e dr qh m lam) <= expect (log_dist e) (fun o => Rabs (g o)).
Proof.
  intros X e qh dr m lam He.
  exists (fun o => let l := log_of e (ev_pb e) qh o in avg (lg_n l) (fun i => (weight l i - modified m lam (weight l i)) * residual dr l i)).
  assert (E : expect (log_dist e) (fun o => let l := log_of e (ev_pb e) qh o in
      avg (lg_n l) (fun i => (weight l i - modified m lam (weight l i)) * residual dr l i)) = lost_value e dr qh m lam).
  { rewrite (expect_log_avg e _ (fun i x a r => (true_weight e x (ev_pos e i) a - modified m lam (true_weight e x (ev_pos e i) a))
        * (r - (if dr then qh x a (ev_pos e i) else 0))) He).
    2:{ intros o p Ho Hp. cbv zeta. cbn [lg_n log_of]. apply avg_ext. intros i Hi.
        destruct (In_dprod_opt _ _ _ _ Ho Hp i Hi) as ([[x a] r] & q & E & _ & _). unfold weight, residual, q_at, true_weight.
        cbn [lg_r lg_q lg_pi lg_a lg_p lg_pos log_of]. rewrite E. destruct dr; [reflexivity|]. rewrite Rminus_0_r. reflexivity. }
    apply avg_ext. intros i Hi. apply expect_ext_all. intros x. apply sumn_ext. intros a Ha. cbv zeta.
    rewrite expect_scal, expect_minus, expect_const by (apply He). unfold unexplained, q_true. ring. }
  split; [|split; [exact E|]].
  - intros o p Ho Hp l. assert (Hn : (0 < lg_n l)%nat) by apply He. unfold rewards. cbv zeta. fold l.
    destruct dr; [rewrite bias_q_ok by auto|rewrite bias_ok by auto]; reflexivity.
  - rewrite <- E at 1. apply expect_abs. apply is_dist_dprod. intros i Hi. apply is_dist_round; auto.
Qed.

(** Clipping at 1 in the example environment loses 1/24 of the value; the hypotheses hold there. *)
Example C132_case : env_ok ex_env /\ common_support ex_env /\ weights_at_most ex_env 2 /\ regular Clipping (Some 1) /\
  (forall o, position_arg (log_of ex_env (ev_pb ex_env) (fun _ _ _ => 0) o) None) /\
  lost_value ex_env false (fun _ _ _ => 0) Clipping (Some 1) = 1 / 24 /\
  (forall x s a, (a < ev_K ex_env)%nat -> 0 <= unexplained ex_env false (fun _ _ _ => 0) x s a <= 1).
Proof.
  split; [apply ex_env_ok|]. split; [apply ex_env_support|]. split; [|split; [easy|split; [|split]]].
  - intros x s a Ha Hb. unfold true_weight. cbn in *. destruct x; idx a; simpl in *; try lia; lra.
  - intros o. apply ex_env_pos.
  - unfold lost_value, avg, unexplained, q_true, true_weight. simpl. unfold Rmin. repeat destruct (Rle_dec _ _); lra.
  - intros x s a Ha. unfold unexplained, q_true. cbn in *. destruct x; idx a; simpl; try lia; lra.
Qed.

Print Assumptions C132_exact_bias.
Print Assumptions C132_correct_model.
Print Assumptions C132_bias_bound.
Print Assumptions C132_large_threshold.
Print Assumptions C132_shrinkage_rate.
Print Assumptions C132_subgaussian_rate.
Print Assumptions C132_pessimistic.
Print Assumptions C132_subgaussian_not_pessimistic.
Print Assumptions C132_reported_bias.
