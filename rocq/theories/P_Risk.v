(** * P_Risk: what the estimated mean squared error of the tuning classes estimates (C133). *)

From Coq Require Import Reals List ZArith Lia Lra Bool.
From Verif Require Import Num NpList M_Utils M_Estimators M_Tuning S_Base S_Prob S_Estimators S_Env S_Tuning S_Bias S_Conc
  L_Num L_Base L_Prob L_Estimators L_EstProps L_Unbiased L_Conc L_Conc3 L_Tuning S_Examples L_Examples P_Tuning P_Bias.
Import ListNotations.
Open Scope R_scope.

(** Second moment of an average of independent quantities, and the expected sample variance. *)
Section Moments.
  Context {A : Type} (n : nat) (D : nat -> dist A) (g : nat -> A -> R) (Hn : (0 < n)%nat) (HD : forall i, (i < n)%nat -> is_dist (D i)).
  Let G (i : nat) (y : option A) : R := match y with Some a => g i a | None => 0 end.
  Let mu i := expect (D i) (g i).
  Let v i := expect (D i) (fun y => (g i y - mu i) * (g i y - mu i)).

  Lemma var_split i : (i < n)%nat -> expect (D i) (fun y => g i y * g i y) = v i + mu i * mu i.
  Proof.
    intros Hi. unfold v. rewrite (expect_ext_all _ (fun y => (g i y - mu i) * (g i y - mu i)) (fun y => g i y * g i y - 2 * mu i * g i y + mu i * mu i)) by (intros; ring).
    rewrite expect_plus, expect_minus, expect_scal, expect_const by auto. fold (mu i). ring.
  Qed.
  Lemma mean_square : expect (dprod n D) (fun o => avg n (fun i => G i (nth_error o i)) * avg n (fun i => G i (nth_error o i)))
    = avg n v / INR n + avg n mu * avg n mu.
  Proof.
    assert (HN : 0 < INR n) by (apply lt_0_INR; auto). assert (HP : is_dist (dprod n D)) by (apply is_dist_dprod; auto).
    set (H := fun i y => G i y - mu i).
    assert (E : forall o, avg n (fun i => G i (nth_error o i)) = / INR n * sumn n (fun i => H i (nth_error o i)) + avg n mu).
    { intros o. unfold H, avg. rewrite sumn_minus. field. lra. }
    rewrite (expect_ext_all _ _ (fun o => / INR n * / INR n * (sumn n (fun i => H i (nth_error o i)) * sumn n (fun i => H i (nth_error o i)))
       + 2 * avg n mu * / INR n * sumn n (fun i => H i (nth_error o i)) + avg n mu * avg n mu)) by (intros o; rewrite E; ring).
    rewrite !expect_plus, !expect_scal, expect_const by auto. rewrite (second_moment D n H HD), (expect_dprod_sumn_opt n D H HD).
    2:{ intros i Hi. unfold H, G. rewrite expect_minus, expect_const by auto. fold (mu i). lra. }
    rewrite (sumn_ext n (fun i => expect (D i) (fun x => H i (Some x))) (fun _ => 0)).
    2:{ intros i Hi. unfold H, G. rewrite expect_minus, expect_const by auto. fold (mu i). lra. }
    rewrite sumn_0. unfold H, G, avg. unfold v. field. lra.
  Qed.
  Lemma mean_avg : expect (dprod n D) (fun o => avg n (fun i => G i (nth_error o i))) = avg n mu.
  Proof. rewrite expect_dprod_avg_opt by auto. reflexivity. Qed.
  Lemma mean_variance : expect (dprod n D) (fun o => variance n (fun i => G i (nth_error o i)))
    = (1 - / INR n) * avg n v + variance n mu.
  Proof.
    assert (HN : 0 < INR n) by (apply lt_0_INR; auto).
    assert (V : forall f, variance n f = avg n (fun i => f i * f i) - avg n f * avg n f).
    { intros f. unfold variance. rewrite (avg_ext n _ (fun i => f i * f i - 2 * avg n f * f i + avg n f * avg n f)) by (intros; ring).
      rewrite avg_plus, avg_minus, avg_scal, avg_const by auto. ring. }
    rewrite (expect_ext_all _ _ _ (fun o => V (fun i => G i (nth_error o i)))), expect_minus, mean_square, V.
    rewrite (expect_dprod_avg_opt n D (fun i y => G i y * G i y)) by auto. cbn [G]. unfold G.
    rewrite (avg_ext n (fun i => expect (D i) (fun x => g i x * g i x)) (fun i => v i + mu i * mu i)) by (intros; apply var_split; auto).
    rewrite avg_plus. field. lra.
  Qed.
End Moments.

(** The estimated MSE of a candidate, averaged over logs, is the true MSE of the estimate, minus the n-th part of its
    variance, plus two nonnegative terms. *)
Theorem C133_expected_score : forall X (e : benv X) qh t lam arg delta, env_ok e -> common_support e -> regular (kind_modifier t) lam ->
  (forall o, position_arg (log_of e (ev_pb e) qh o) arg) ->
  exists est score : list (X * nat * R) -> R,
    (forall o p, In (o, p) (log_dist e) -> p <> 0 -> let l := log_of e (ev_pb e) qh o in
       base_value t (lam_num lam) false
         (mkTinput (rewards l) (actions l) (policy l) (if uses_model t then Some (model l) else None) (Some (pscores l)) arg None) = Ok (Fin (est o)) /\
       base_mse t (lam_num lam) (rewards l) (actions l) (pscores l) (policy l) (Some (model l)) (positions l) false delta = Ok (Fin (score o))) /\
    let n := INR (ev_n e) in
    let mse := expect (log_dist e) (fun o => (est o - policy_value e) * (est o - policy_value e)) in
    let value := round_value e (uses_model t) qh (kind_modifier t) lam in
    let loss := round_loss e (uses_model t) qh (kind_modifier t) lam in
    mse = avg (ev_n e) (round_var e value) / n + lost_value e (uses_model t) qh (kind_modifier t) lam * lost_value e (uses_model t) qh (kind_modifier t) lam /\
    expect (log_dist e) score = mse - avg (ev_n e) (round_var e value) / (n * n)
      + variance (ev_n e) (round_mean e value) / n + avg (ev_n e) (round_var e loss) / n /\
    (1 - 1 / n) * mse <= expect (log_dist e) score.
Proof.
  intros X e qh t lam arg delta He Hcs Hr Harg. set (dr := uses_model t). set (m := kind_modifier t) in *.
  assert (Hn : (0 < ev_n e)%nat) by apply He. assert (HN : 0 < INR (ev_n e)) by (apply lt_0_INR; auto).
  assert (HD : forall i, (i < ev_n e)%nat -> is_dist (round_dist e i)) by (intros; apply is_dist_round; auto).
  assert (HP : is_dist (log_dist e)) by (apply is_dist_dprod; auto).
  set (value := round_value e dr qh m lam). set (loss := round_loss e dr qh m lam).
  set (opt := fun (f : nat -> X * nat * R -> R) (i : nat) (y : option (X * nat * R)) => match y with Some a => f i a | None => 0 end).
  set (C := fun (o : list (X * nat * R)) i => opt value i (nth_error o i)). set (B := fun (o : list (X * nat * R)) i => opt loss i (nth_error o i)).
  exists (fun o => avg (ev_n e) (C o)), (fun o => variance (ev_n e) (C o) / INR (ev_n e) + avg (ev_n e) (B o) * avg (ev_n e) (B o)).
  assert (Mv : forall o p, In (o, p) (log_dist e) -> p <> 0 -> forall i, (i < ev_n e)%nat -> contribution dr m lam (log_of e (ev_pb e) qh o) i = C o i).
  { intros o p Ho Hp i Hi. destruct (In_dprod_opt _ _ _ _ Ho Hp i Hi) as ([[x a] r] & q & E & _ & _). unfold contribution.
    rewrite (q_pi_log e He _ _ _ _ _ _ _ Hi E). unfold C, opt, value, round_value, weight, residual, q_at, true_weight.
    cbn [lg_r lg_q lg_pi lg_a lg_p lg_pos log_of]. rewrite E. destruct dr; [reflexivity|]. rewrite Rminus_0_r. reflexivity. }
  assert (Ml : forall o p, In (o, p) (log_dist e) -> p <> 0 -> forall i, (i < ev_n e)%nat ->
     (weight (log_of e (ev_pb e) qh o) i - modified m lam (weight (log_of e (ev_pb e) qh o) i)) * residual dr (log_of e (ev_pb e) qh o) i = B o i).
  { intros o p Ho Hp i Hi. destruct (In_dprod_opt _ _ _ _ Ho Hp i Hi) as ([[x a] r] & q & E & _ & _).
    unfold B, opt, loss, round_loss, weight, residual, q_at, true_weight.
    cbn [lg_r lg_q lg_pi lg_a lg_p lg_pos log_of]. rewrite E. destruct dr; [reflexivity|]. rewrite Rminus_0_r. reflexivity. }
  split.
  { intros o p Ho Hp l. assert (Ha : accepted l) by (eapply accepted_log; eauto). assert (Hpo : is_policy l) by (eapply policy_log; eauto).
    split.
    - fold dr. replace (if dr then Some (model l) else None) with (model_arg t l) by reflexivity.
      rewrite (base_value_ok t lam false); auto; [|apply Harg|reflexivity]. unfold spec_value. do 2 f_equal. apply avg_ext. intros i Hi. apply (Mv o p); auto.
    - rewrite <- base_mse_arg. assert (Hex : exists wmax, is_max (lg_n l) (weight l) wmax) by (destruct (nmaxl_tabF (lg_n l) (weight l) (acc_n l Ha)) as (w & _ & Hw); eauto).
      destruct Hex as (wmax & Hmax). rewrite (score_ok t lam l false delta wmax) by (auto; easy). unfold spec_score. rewrite Rplus_0_r. do 3 f_equal.
      + unfold sampling_variance. f_equal. unfold variance. cbn [lg_n log_of l].
        rewrite (avg_ext _ (contribution (uses_model t) (kind_modifier t) lam (log_of e (ev_pb e) qh o)) (C o)) by (intros i Hi; apply (Mv o p); auto).
        apply avg_ext. intros i Hi. pose proof (Mv o p Ho Hp i Hi) as Ei. unfold l. fold dr m. rewrite Ei. reflexivity.
      + unfold spec_bias. rewrite <- Rabs_mult, Rabs_right by (apply Rle_ge, Rle_0_sqr). cbn [lg_n log_of l].
        rewrite (avg_ext _ _ (B o)) by (intros i Hi; apply (Ml o p); auto). reflexivity. }
  cbv zeta. fold dr m value loss.
  assert (Lv : avg (ev_n e) (round_mean e value) = policy_value e - lost_value e dr qh m lam).
  { destruct (C132_exact_bias X e qh t lam arg He Hcs Hr Harg) as (g & Hg & Eg). fold dr m in Eg. rewrite <- Eg.
    rewrite (expect_ext _ g (fun o => avg (ev_n e) (C o))).
    - unfold C, log_dist. rewrite (expect_dprod_avg_opt _ _ (opt value)) by auto. reflexivity.
    - intros o p Ho Hp. specialize (Hg o p Ho Hp). cbv zeta in Hg. fold dr in Hg.
      replace (if dr then Some (model (log_of e (ev_pb e) qh o)) else None) with (model_arg t (log_of e (ev_pb e) qh o)) in Hg by reflexivity.
      rewrite (base_value_ok t lam false) in Hg; auto; [|eapply accepted_log; eauto|eapply policy_log; eauto|reflexivity].
      injection Hg as <-. unfold spec_value. apply avg_ext. intros i Hi. apply (Mv o p); auto. }
  assert (Ll : avg (ev_n e) (round_mean e loss) = lost_value e dr qh m lam).
  { destruct (C132_reported_bias X e qh dr m lam He) as (g & Hg & Eg & _). clear Hg Eg g.
    unfold lost_value. apply avg_ext. intros i Hi. unfold round_mean, loss, round_loss.
    rewrite (expect_round e i _ (fun x a r => (true_weight e x (ev_pos e i) a - modified m lam (true_weight e x (ev_pos e i) a)) * (r - (if dr then qh x a (ev_pos e i) else 0)))) by reflexivity.
    apply expect_ext_all. intros x. apply sumn_ext. intros a Ha. cbv zeta.
    rewrite expect_scal, expect_minus, expect_const by (apply He). unfold unexplained, q_true. ring. }
  pose proof (mean_square (ev_n e) (round_dist e) value Hn HD) as S1. pose proof (mean_avg (ev_n e) (round_dist e) value HD) as S2.
  pose proof (mean_square (ev_n e) (round_dist e) loss Hn HD) as S3. pose proof (mean_variance (ev_n e) (round_dist e) value Hn HD) as S4.
  set (V := policy_value e) in *. set (L := lost_value e dr qh m lam) in *.
  assert (M : expect (log_dist e) (fun o => (avg (ev_n e) (C o) - V) * (avg (ev_n e) (C o) - V)) = avg (ev_n e) (round_var e value) / INR (ev_n e) + L * L).
  { rewrite (expect_ext_all _ _ (fun o => avg (ev_n e) (C o) * avg (ev_n e) (C o) - 2 * V * avg (ev_n e) (C o) + V * V)) by (intros; ring).
    rewrite expect_plus, expect_minus, expect_scal, expect_const by auto.
    unfold log_dist at 1 2. unfold C at 1 2 3. unfold opt. rewrite S1, S2. fold (round_mean e value) in *.
    change (avg (ev_n e) (fun i => expect (round_dist e i) (value i))) with (avg (ev_n e) (round_mean e value)). rewrite Lv.
    change (avg (ev_n e) (fun i => expect (round_dist e i) (fun y => (value i y - expect (round_dist e i) (value i)) * (value i y - expect (round_dist e i) (value i)))))
      with (avg (ev_n e) (round_var e value)). ring. }
  assert (Sc : expect (log_dist e) (fun o => variance (ev_n e) (C o) / INR (ev_n e) + avg (ev_n e) (B o) * avg (ev_n e) (B o))
    = ((1 - / INR (ev_n e)) * avg (ev_n e) (round_var e value) + variance (ev_n e) (round_mean e value)) / INR (ev_n e)
      + (avg (ev_n e) (round_var e loss) / INR (ev_n e) + L * L)).
  { rewrite expect_plus. unfold Rdiv at 1. rewrite expect_scal_r. unfold log_dist at 1 2. unfold C, B, opt. rewrite S4, S3, <- Ll. reflexivity. }
  rewrite Sc, M. split; [reflexivity|]. split; [field; lra|].
  assert (V0 : 0 <= avg (ev_n e) (round_var e loss) / INR (ev_n e)).
  { unfold Rdiv. apply Rmult_le_pos; [|left; apply Rinv_0_lt_compat; auto]. rewrite <- (avg_const (ev_n e) 0) by auto. apply avg_le; auto.
    intros i Hi. apply expect_pos; auto. intros. apply Rle_0_sqr. }
  assert (V1 : 0 <= variance (ev_n e) (round_mean e value) / INR (ev_n e)).
  { unfold Rdiv. apply Rmult_le_pos; [|left; apply Rinv_0_lt_compat; auto]. unfold variance. rewrite <- (avg_const (ev_n e) 0) by auto. apply avg_le; auto.
    intros i Hi. apply Rle_0_sqr. }
  assert (V2 : 0 <= / INR (ev_n e) * (L * L)) by (apply Rmult_le_pos; [left; apply Rinv_0_lt_compat; auto|apply Rle_0_sqr]).
  unfold Rdiv in *. rewrite Rmult_plus_distr_r with (r3 := / INR (ev_n e)). lra.
Qed.


(** In the example environment clipping at 1 leaves a bias of 1/24 and a variance of 1031/5184 per round. *)
Example C133_case : env_ok ex_env /\ common_support ex_env /\ regular (kind_modifier T_IPW) (Some 1) /\
  (forall o, position_arg (log_of ex_env (ev_pb ex_env) (fun _ _ _ => 0) o) None) /\
  round_var ex_env (round_value ex_env false (fun _ _ _ => 0) Clipping (Some 1)) 0 = 1031 / 5184.
Proof.
  split; [apply ex_env_ok|]. split; [apply ex_env_support|]. split; [easy|]. split; [intros o; apply ex_env_pos|].
  unfold round_var, round_mean, round_value, true_weight. simpl. replace (0 / 0) with 0 by (unfold Rdiv; ring).
  repeat match goal with |- context [Rmin ?a 1] => first [replace (Rmin a 1) with 1 by (unfold Rmin; destruct (Rle_dec a 1); lra) | replace (Rmin a 1) with a by (unfold Rmin; destruct (Rle_dec a 1); lra)] end.
  field.
Qed.

Print Assumptions C133_expected_score.
