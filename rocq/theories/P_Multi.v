(** * P_Multi: properties C40-C43 (multi-logger estimators) and C86 (intervals). *)

From Coq Require Import Reals List ZArith Lia Lra.
From Verif Require Import Num NpList M_Utils M_Estimators M_Slate M_Multi S_Base S_Prob S_Estimators S_Env
  S_Examples S_Multi L_Num L_Base L_Prob L_Estimators L_Unbiased L_Examples L_Multi.
Import ListNotations.
Open Scope R_scope.

(** ** C40 *)

(** Naive estimators: same as IPW and DR on the pooled log. *)
Theorem C40_naive_value : forall l lam use_est ps eps arg,
  accepted l -> position_arg l arg -> pscore_arg l use_est ps eps ->
  mn_ipw_value (lam_num lam) use_est (rewards l) (actions l) (policy l) ps arg eps
  = Ok (Fin (avg (lg_n l) (ipw_term lam l))) /\
  mn_dr_value (lam_num lam) use_est (rewards l) (actions l) (policy l) (model l) ps arg eps
  = Ok (Fin (avg (lg_n l) (dr_term lam l))).
Proof.
  intros. split.
  - rewrite mn_ipw_value_ok by auto. reflexivity.
  - rewrite mn_dr_value_ok by auto. unfold dr_term, dr_corr. do 2 f_equal. symmetry. apply dr_sum.
Qed.

Theorem C40_weighted_ipw_value : forall l g S lam use_est ps eps arg,
  accepted l -> position_arg l arg -> pscore_arg l use_est ps eps ->
  contiguous (lg_n l) g S ->
  (forall k, (k < S)%nat -> 0 < st_var (lg_n l) g (ipw_term lam l) k) ->
  mw_ipw_value (lam_num lam) use_est (rewards l) (actions l) (policy l) (labels l g) ps arg eps
  = Ok (Fin (inverse_variance_average (lg_n l) S g (ipw_term lam l) (ipw_term lam l))).
Proof.
  intros l g S lam use_est ps eps arg H Harg Hps Hc Hv. unfold mw_ipw_value.
  rewrite m_ipw_like_ok by eauto. rewrite (mw_ipw_round_ok lam l g S) by auto.
  unfold mean_of. cbn [bind]. rewrite nmean_tabF by (apply H). do 2 f_equal.
  apply ivavg_ok. apply H. apply Hc.
  - apply Rgt_not_eq, W_pos; auto. apply H.
  - intros k Hk. specialize (Hv k Hk). lra.
Qed.

(** Weighted DR: the direct-method mean plus the inverse-variance average of the corrections, the
    variances being those of the full DR contributions. *)
Theorem C40_weighted_dr_value : forall l g S lam use_est ps eps arg,
  accepted l -> position_arg l arg -> pscore_arg l use_est ps eps ->
  contiguous (lg_n l) g S ->
  (forall k, (k < S)%nat -> 0 < st_var (lg_n l) g (dr_term lam l) k) ->
  mw_dr_value (lam_num lam) use_est (rewards l) (actions l) (policy l) (labels l g) (model l) ps arg eps
  = Ok (Fin (spec_dm l + inverse_variance_average (lg_n l) S g (dr_term lam l) (dr_corr lam l))).
Proof.
  intros l g S lam use_est ps eps arg H Harg Hps Hc Hv. unfold mw_dr_value.
  rewrite m_dr_like_ok by eauto. rewrite (mw_dr_round_ok lam l g S) by auto.
  unfold mean_of. cbn [bind]. rewrite nmean_tabF by (apply H). do 2 f_equal.
  rewrite avg_plus. unfold spec_dm. f_equal.
  apply ivavg_ok. apply H. apply Hc.
  - apply Rgt_not_eq, W_pos; auto. apply H.
  - intros k Hk. specialize (Hv k Hk). lra.
Qed.

(** The weights are proportional to the inverse variances, average to one over the rounds, and
    reproduce the estimate. *)
Theorem C40_weights : forall n g S z y, (0 < n)%nat -> contiguous n g S ->
  (forall k, (k < S)%nat -> 0 < st_var n g z k) ->
  sumn S (fun k => st_size n g k * paper_weight n S g z k) = INR n /\
  (forall j k, (j < S)%nat -> (k < S)%nat ->
     paper_weight n S g z j * st_var n g z j = paper_weight n S g z k * st_var n g z k) /\
  avg n (fun i => y i * paper_weight n S g z (g i)) = inverse_variance_average n S g z y.
Proof.
  intros n g S z y Hn Hc Hv. pose proof (W_pos n g S z Hn Hc Hv) as HW. split; [|split].
  - apply paper_weight_sum; auto.
  - intros j k Hj Hk. pose proof (Hv j Hj). pose proof (Hv k Hk). unfold paper_weight. field. lra.
  - apply ivavg_ok; auto. apply Hc. lra. intros k Hk. pose proof (Hv k Hk). lra.
Qed.

(** With equal stratum variances the weighted and the naive estimates agree. *)
Theorem C40_equal_variances : forall l g S lam use_est ps eps arg v,
  accepted l -> position_arg l arg -> pscore_arg l use_est ps eps ->
  contiguous (lg_n l) g S -> 0 < v ->
  (forall k, (k < S)%nat -> st_var (lg_n l) g (ipw_term lam l) k = v) ->
  mw_ipw_value (lam_num lam) use_est (rewards l) (actions l) (policy l) (labels l g) ps arg eps
  = mn_ipw_value (lam_num lam) use_est (rewards l) (actions l) (policy l) ps arg eps.
Proof.
  intros l g S lam use_est ps eps arg v H Harg Hps Hc Hv He.
  rewrite (C40_weighted_ipw_value l g S) by (auto; intros; rewrite He; auto).
  rewrite (ivavg_equal _ _ _ _ _ v) by (auto; apply H).
  symmetry. apply (C40_naive_value l lam use_est ps eps arg); auto.
Qed.

(** Four rounds, two loggers, unit weights: rewards 0, 2 in stratum 0 and 1, 7 in stratum 1. *)
Definition ex_multi : blog := {|
  lg_n := 4; lg_K := 1; lg_L := 1;
  lg_r := fun i => nth i [0; 2; 1; 7] 0; lg_a := fun _ => 0%nat; lg_pos := fun _ => 0%nat;
  lg_p := fun _ => 1; lg_pi := fun _ _ _ => 1; lg_q := fun _ _ _ => 0 |}.
Definition ex_labels (i : nat) : nat := nth i [0; 0; 1; 1]%nat 0%nat.

Lemma ex_multi_accepted : accepted ex_multi.
Proof.
  constructor; simpl; intros; try lia; try lra. rabs.
Qed.
Lemma ex_labels_ok : contiguous 4 ex_labels 2.
Proof.
  split.
  - intros i Hi. destruct i as [|[|[|[|i]]]]; unfold ex_labels; simpl; lia.
  - intros k Hk. destruct k as [|[|k]]; [exists 0%nat|exists 2%nat|lia]; simpl; split; auto; lia.
Qed.

Lemma ex_multi_terms i : ipw_term None ex_multi i = nth i [0; 2; 1; 7] 0.
Proof. unfold ipw_term, clip, weight; simpl. field. Qed.

Lemma ex_multi_var : st_var 4 ex_labels (ipw_term None ex_multi) 0 = 1 /\
  st_var 4 ex_labels (ipw_term None ex_multi) 1 = 9.
Proof.
  unfold st_var, st_mean, st_sum, st_size. cbn [sumn]. rewrite !ex_multi_terms.
  unfold member, ex_labels. simpl. split; field.
Qed.

Example C40_example : accepted ex_multi /\ position_arg ex_multi None /\
  contiguous (lg_n ex_multi) ex_labels 2 /\
  (forall k, (k < 2)%nat -> 0 < st_var (lg_n ex_multi) ex_labels (ipw_term None ex_multi) k) /\
  inverse_variance_average 4 2 ex_labels (ipw_term None ex_multi) (ipw_term None ex_multi) = 13/10.
Proof.
  split; [apply ex_multi_accepted|]. split; [right; simpl; auto|]. split; [apply ex_labels_ok|].
  destruct ex_multi_var as [E1 E2]. split.
  - intros k Hk. cbn [lg_n ex_multi]. destruct k as [|[|k]]; [rewrite E1|rewrite E2|lia]; lra.
  - unfold inverse_variance_average. cbn [sumn]. rewrite E1, E2. unfold st_sum, st_size. cbn [sumn].
    rewrite !ex_multi_terms. unfold member, ex_labels. simpl. field.
Qed.

(** ** C41 *)

(** Any gap in the labels: IndexError. *)
Theorem C41_gap : forall l g lam use_est ps eps arg,
  accepted l -> position_arg l arg -> pscore_arg l use_est ps eps -> has_gap (lg_n l) g ->
  mw_ipw_value (lam_num lam) use_est (rewards l) (actions l) (policy l) (labels l g) ps arg eps
  = Err IndexError /\
  mw_dr_value (lam_num lam) use_est (rewards l) (actions l) (policy l) (labels l g) (model l) ps arg eps
  = Err IndexError.
Proof.
  intros. unfold mw_ipw_value, mw_dr_value. rewrite m_ipw_like_ok, m_dr_like_ok by eauto.
  rewrite mw_ipw_round_gap, mw_dr_round_gap by auto. auto.
Qed.

(** Labels without a gap are exactly [0 .. S-1]: with C40 and the next theorem every accepted log is
    covered. *)
Theorem C41_gap_or_contiguous : forall n g, (0 < n)%nat ->
  has_gap n g \/ exists S, contiguous n g S.
Proof.
  intros n g Hn.
  assert (Hmax : exists M, forall i, (i < n)%nat -> (g i < M)%nat).
  { clear. induction n. exists 0%nat; intros; lia. destruct IHn as [M HM]. exists (M + S (g n))%nat.
    intros i Hi. destruct (Nat.eq_dec i n) as [->|]; [lia|]. specialize (HM i). lia. }
  assert (Hdec : forall k, (exists i, (i < n)%nat /\ g i = k) \/ (forall i, (i < n)%nat -> g i <> k)).
  { intros k. clear. induction n. right; intros; lia.
    destruct IHn as [(i & Hi & E)|H]. left; exists i; split; auto.
    destruct (Nat.eq_dec (g n) k). left; exists n; split; auto.
    right. intros i Hi. destruct (Nat.eq_dec i n) as [->|]; auto. apply H; lia. }
  assert (Hlow : forall M, (forall i, (i < n)%nat -> (g i < M)%nat) -> has_gap n g \/ exists S, contiguous n g S).
  { intros M. induction M; intros HM.
    - specialize (HM 0%nat Hn). lia.
    - destruct (Hdec M) as [(i & Hi & E)|HN].
      + destruct (classic_gap n g M Hdec) as [Hfull|(k & Hk & Hno)].
        * right. exists (S M). split; auto. intros k Hk.
          destruct (Nat.eq_dec k M) as [->|]; [eauto|]. apply Hfull; lia.
        * left. exists k, i. repeat split; auto. lia.
      + apply IHM. intros i Hi. specialize (HM i Hi). specialize (HN i Hi). lia. }
  destruct Hmax as [M HM]. eauto.
Qed.

(** A stratum with constant round rewards (for instance a single round): NaN. *)
Theorem C41_zero_variance : forall l g S lam use_est ps eps arg k,
  accepted l -> position_arg l arg -> pscore_arg l use_est ps eps ->
  contiguous (lg_n l) g S -> (k < S)%nat ->
  (st_var (lg_n l) g (ipw_term lam l) k = 0 ->
   mw_ipw_value (lam_num lam) use_est (rewards l) (actions l) (policy l) (labels l g) ps arg eps = Ok NaN) /\
  (st_var (lg_n l) g (dr_term lam l) k = 0 ->
   mw_dr_value (lam_num lam) use_est (rewards l) (actions l) (policy l) (labels l g) (model l) ps arg eps = Ok NaN).
Proof.
  intros l g S lam use_est ps eps arg k H Harg Hps Hc Hk. unfold mw_ipw_value, mw_dr_value.
  rewrite m_ipw_like_ok, m_dr_like_ok by eauto. split; intros Hz.
  - destruct (mw_ipw_round_zero lam l g S k H Hc Hk Hz) as (rr & -> & Hin). simpl.
    rewrite nmean_NaN by auto. reflexivity.
  - destruct (mw_dr_round_zero lam l g S k H Hc Hk Hz) as (rr & -> & Hin). simpl.
    rewrite nmean_NaN by auto. reflexivity.
Qed.

(** In particular a logger that contributed a single round. *)
Theorem C41_singleton_stratum : forall l g S lam use_est ps eps arg i,
  accepted l -> position_arg l arg -> pscore_arg l use_est ps eps ->
  contiguous (lg_n l) g S -> (i < lg_n l)%nat ->
  (forall j, (j < lg_n l)%nat -> g j = g i -> j = i) ->
  mw_ipw_value (lam_num lam) use_est (rewards l) (actions l) (policy l) (labels l g) ps arg eps = Ok NaN.
Proof.
  intros l g S lam use_est ps eps arg i H Harg Hps Hc Hi Hone.
  apply (C41_zero_variance l g S lam use_est ps eps arg (g i)); auto. apply Hc; auto.
  assert (Hst : forall z, st_sum (lg_n l) g z (g i) = z i).
  { intros z. unfold st_sum. rewrite (sumn_term _ _ i); auto.
    - unfold member. destruct (Nat.eq_dec _ _); [lra|congruence].
    - intros j Hj Hne. unfold member. destruct (Nat.eq_dec _ _) as [E|]; [|lra]. elim Hne; auto. }
  assert (Hsz : st_size (lg_n l) g (g i) = 1).
  { rewrite <- (Hst (fun _ => 1)). unfold st_size, st_sum. apply sumn_ext. intros; lra. }
  unfold st_var, st_mean. rewrite !Hst, Hsz. field.
Qed.

Example C41_example : has_gap 4 (fun i => 2 * ex_labels i)%nat /\ contiguous 3 ex_labels 2 /\
  (2 < 3)%nat /\ forall j, (j < 3)%nat -> ex_labels j = ex_labels 2 -> j = 2%nat.
Proof.
  split; [|split; [|split]].
  - exists 1%nat, 2%nat. simpl. repeat split; try lia.
  - split.
    + intros i Hi. destruct i as [|[|[|[|i]]]]; unfold ex_labels; simpl; lia.
    + intros k Hk. destruct k as [|[|k]]; [exists 0%nat|exists 2%nat|lia]; simpl; split; auto; lia.
  - lia.
  - intros j Hj. destruct j as [|[|[|j]]]; unfold ex_labels; simpl; lia.
Qed.

(** ** C42 *)
Theorem C42_balanced_interval_never_returns : forall lam use_est reward action action_dist q_hat ps pos eps alpha B choice iv,
  mb_ipw_interval lam use_est reward action action_dist ps pos eps alpha B choice <> Ok iv /\
  mb_dr_interval lam use_est reward action action_dist q_hat ps pos eps alpha B choice <> Ok iv.
Proof.
  intros. unfold mb_ipw_interval, mb_dr_interval, interval_of, m_ipw_like, m_dr_like.
  destruct (choose_pscore use_est ps eps); simpl; [|split; discriminate].
  split; destruct (check_multi_loggers_ope_inputs _ _ _ _ _ _ _); simpl; discriminate.
Qed.

(** It raises TypeError exactly where the point estimate succeeds. *)
Theorem C42_balanced_interval_typeerror : forall lam use_est reward action action_dist q_hat ps pos eps alpha B choice v,
  (mb_ipw_value lam use_est reward action action_dist ps pos eps = Ok v ->
   mb_ipw_interval lam use_est reward action action_dist ps pos eps alpha B choice = Err TypeError) /\
  (mb_dr_value lam use_est reward action action_dist q_hat ps pos eps = Ok v ->
   mb_dr_interval lam use_est reward action action_dist q_hat ps pos eps alpha B choice = Err TypeError).
Proof.
  intros. unfold mb_ipw_interval, mb_dr_interval, mb_ipw_value, mb_dr_value, interval_of, mean_of, m_ipw_like, m_dr_like.
  destruct (choose_pscore use_est ps eps); simpl; [|split; discriminate].
  split; destruct (check_multi_loggers_ope_inputs _ _ _ _ _ _ _); simpl; auto; discriminate.
Qed.

(** The balanced point estimates are IPW and DR with the averaged propensities. *)
Theorem C42_balanced_value : forall l lam use_est ps eps arg,
  accepted l -> position_arg l arg -> pscore_arg l use_est ps eps ->
  mb_ipw_value (lam_num lam) use_est (rewards l) (actions l) (policy l) ps arg eps
  = Ok (Fin (avg (lg_n l) (ipw_term lam l))) /\
  mb_dr_value (lam_num lam) use_est (rewards l) (actions l) (policy l) (model l) ps arg eps
  = Ok (Fin (avg (lg_n l) (dr_term lam l))).
Proof. intros. apply (C40_naive_value l lam use_est ps eps arg); auto. Qed.

Example C42_example : accepted ex_log /\ position_arg ex_log (Some (positions ex_log)) /\
  pscore_arg ex_log true None (Some (pscores ex_log)).
Proof. split; [apply ex_log_accepted|]. split; [apply ex_log_pos|reflexivity]. Qed.

(** ** C43 *)
Theorem C43_balanced_ipw_unbiased : forall (X : Type) (m : menv X) qh arg,
  menv_ok m -> pooled_support m ->
  (forall o, position_arg (log_of (env_of m) (avg_pscore m) qh o) arg) ->
  expects (log_dist (env_of m))
    (fun o => let l := log_of (env_of m) (avg_pscore m) qh o in
              mb_ipw_value PInf false (rewards l) (actions l) (policy l) (Some (pscores l)) arg None)
    (me_value m).
Proof. intros. apply mb_ipw_unbiased; auto. Qed.

Theorem C43_balanced_dr_unbiased : forall (X : Type) (m : menv X) (qh : X -> nat -> nat -> R) arg,
  menv_ok m -> pooled_support m ->
  (forall o, position_arg (log_of (env_of m) (avg_pscore m) (fun xk => qh (fst xk)) o) arg) ->
  expects (log_dist (env_of m))
    (fun o => let l := log_of (env_of m) (avg_pscore m) (fun xk => qh (fst xk)) o in
              mb_dr_value PInf false (rewards l) (actions l) (policy l) (model l) (Some (pscores l)) arg None)
    (me_value m).
Proof. intros. apply mb_dr_unbiased; auto. Qed.

Theorem C43_naive_ipw_unbiased : forall (X : Type) (m : menv X) qh arg,
  menv_ok m -> full_support m ->
  (forall o, position_arg (log_of (env_of m) (own_pscore m) qh o) arg) ->
  expects (log_dist (env_of m))
    (fun o => let l := log_of (env_of m) (own_pscore m) qh o in
              mn_ipw_value PInf false (rewards l) (actions l) (policy l) (Some (pscores l)) arg None)
    (me_value m).
Proof. intros. apply mn_ipw_unbiased; auto. Qed.

(** Two loggers, each always playing its own action; the evaluation policy plays both equally. *)
Definition ex_menv : menv unit := {|
  me_n := 2; me_K := 2; me_L := 1; me_S := 2; me_s := 0%nat; me_g := fun i => i;
  me_ctx := [(tt, 1)];
  me_pb := fun k _ _ a => if Nat.eqb a (Nat.min k 1) then 1 else 0;
  me_pe := fun _ _ _ => 1 / 2;
  me_rd := fun _ _ a => [(1 + 2 * INR a, 1)] |}.

Lemma ex_menv_ok : menv_ok ex_menv.
Proof.
  constructor; simpl; intros; try lia; try lra.
  - split; simpl; [intros ? ? [[= <- <-]|[]]; lra|lra].
  - destruct (Nat.eqb a (Nat.min k 1)); lra.
  - destruct k as [|k]; simpl; [lra|]. replace (Nat.min k 0) with 0%nat by lia. simpl. lra.
  - split; simpl; [intros ? ? [[= <- <-]|[]]; lra|lra].
Qed.

Lemma ex_menv_support : pooled_support ex_menv.
Proof.
  intros x a Ha _. exists a. simpl in *. split; auto. replace (Nat.min a 1) with a by lia.
  rewrite Nat.eqb_refl. lra.
Qed.

(** Without full support the naive estimate is biased although the balanced one is not. *)
Theorem C43_naive_biased_without_full_support : exists (m : menv unit),
  menv_ok m /\ pooled_support m /\
  expects (log_dist (env_of m))
    (fun o => let l := log_of (env_of m) (own_pscore m) (fun _ _ _ => 0) o in
              mn_ipw_value PInf false (rewards l) (actions l) (policy l) (Some (pscores l)) None None)
    1 /\
  me_value m = 2.
Proof.
  exists ex_menv. split; [apply ex_menv_ok|]. split; [apply ex_menv_support|]. split.
  - exists (fun o => spec_ipw None (log_of (env_of ex_menv) (own_pscore ex_menv) (fun _ _ _ => 0) o)). split.
    + intros o p Ho Hp. cbv zeta. apply (mn_ipw_value_ok None false); try reflexivity.
      * eapply accepted_multi; eauto using ex_menv_ok.
      * right. simpl. auto.
    + unfold spec_ipw, avg, weight, clip, own_pscore. simpl. unfold Rdiv. generalize (/ 0). intros c. field.
  - unfold me_value. simpl. lra.
Qed.

Example C43_example : menv_ok ex_menv /\ pooled_support ex_menv /\
  (forall o, position_arg (log_of (env_of ex_menv) (avg_pscore ex_menv) (fun _ _ _ => 0) o) None).
Proof. split; [apply ex_menv_ok|]. split; [apply ex_menv_support|]. intros o. right. simpl. auto. Qed.

(** ** C86: intervals resample the per-round contributions behind the point estimate *)

(** Either both methods raise the same exception, or there is one array of per-round values whose
    mean is the point estimate and whose bootstrap (utils.py, property C05) is the interval. *)
Definition resamples (value : res num) (ci : R -> Z -> (nat -> nat -> nat) -> res interval) : Prop :=
  (exists e, value = Err e /\ forall alpha B choice, ci alpha B choice = Err e) \/
  (exists rr, value = Ok (nmean rr) /\
     forall alpha B choice, ci alpha B choice = estimate_confidence_interval_by_bootstrap rr alpha B choice).

Ltac resamp :=
  unfold resamples; repeat match goal with
  | |- context [bind ?m _] => destruct m; cbn [bind]
  end; [right; eexists; split; [reflexivity|intros; reflexivity] | left; eexists; split; [reflexivity|intros; reflexivity] ..].

Theorem C86_interval_resamples_rounds :
  forall lam reward action action_dist q_hat eiw pos use_est ps eps round_i round_d,
  resamples (rm_value reward action action_dist pos) (rm_interval reward action action_dist pos) /\
  resamples (dm_value action_dist q_hat pos) (dm_interval action_dist q_hat pos) /\
  resamples (bipw_value lam reward action action_dist eiw pos)
            (bipw_interval lam reward action action_dist eiw pos) /\
  resamples (ipw_like_value round_i use_est reward action action_dist ps pos eps)
            (ipw_like_interval round_i use_est reward action action_dist ps pos eps) /\
  resamples (dr_like_value round_d use_est reward action action_dist q_hat ps pos eps)
            (dr_like_interval round_d use_est reward action action_dist q_hat ps pos eps).
Proof.
  intros.
  unfold rm_value, rm_interval, dm_value, dm_interval, bipw_value, bipw_interval,
    ipw_like_value, ipw_like_interval, dr_like_value, dr_like_interval.
  split; [|split; [|split; [|split]]]; resamp.
Qed.

Theorem C86_multi_interval_resamples_rounds :
  forall lam reward action action_dist q_hat st pos use_est ps eps,
  resamples (mn_ipw_value lam use_est reward action action_dist ps pos eps)
            (mn_ipw_interval lam use_est reward action action_dist ps pos eps) /\
  resamples (mw_ipw_value lam use_est reward action action_dist st ps pos eps)
            (mw_ipw_interval lam use_est reward action action_dist st ps pos eps) /\
  resamples (mn_dr_value lam use_est reward action action_dist q_hat ps pos eps)
            (mn_dr_interval lam use_est reward action action_dist q_hat ps pos eps) /\
  resamples (mw_dr_value lam use_est reward action action_dist st q_hat ps pos eps)
            (mw_dr_interval lam use_est reward action action_dist st q_hat ps pos eps).
Proof.
  intros. unfold mn_ipw_value, mn_ipw_interval, mw_ipw_value, mw_ipw_interval, mn_dr_value,
    mn_dr_interval, mw_dr_value, mw_dr_interval, mean_of, interval_of.
  split; [|split; [|split]]; resamp.
Qed.

Example C86_example : accepted ex_multi /\ contiguous (lg_n ex_multi) ex_labels 2 /\
  mw_ipw_value PInf false (rewards ex_multi) (actions ex_multi) (policy ex_multi) (labels ex_multi ex_labels)
    (Some (pscores ex_multi)) None None = Ok (Fin (13/10)).
Proof.
  destruct C40_example as (H1 & H2 & H3 & H4 & H5). split; auto. split; auto.
  rewrite (C40_weighted_ipw_value ex_multi ex_labels 2 None) by (auto; reflexivity).
  do 2 f_equal. exact H5.
Qed.

Print Assumptions C40_naive_value.
Print Assumptions C40_weighted_ipw_value.
Print Assumptions C40_weighted_dr_value.
Print Assumptions C40_weights.
Print Assumptions C40_equal_variances.
Print Assumptions C41_gap.
Print Assumptions C41_gap_or_contiguous.
Print Assumptions C41_zero_variance.
Print Assumptions C41_singleton_stratum.
Print Assumptions C42_balanced_interval_never_returns.
Print Assumptions C42_balanced_interval_typeerror.
Print Assumptions C42_balanced_value.
Print Assumptions C43_balanced_ipw_unbiased.
Print Assumptions C43_balanced_dr_unbiased.
Print Assumptions C43_naive_ipw_unbiased.
Print Assumptions C43_naive_biased_without_full_support.
Print Assumptions C86_interval_resamples_rounds.
Print Assumptions C86_multi_interval_resamples_rounds.
