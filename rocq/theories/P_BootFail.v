(** * P_BootFail: bootstrap intervals have no finite-sample coverage guarantee (C143). *)

From Coq Require Import Reals List ZArith Bool Lia Lra.
From Verif Require Import Num NpList M_Utils M_Estimators S_Base S_Prob S_Estimators S_Env S_Conc
  L_Num L_Base L_Prob L_Estimators L_EstProps L_Unbiased L_Examples L_Conc P_Utils.
Import ListNotations.
Open Scope R_scope.

(** ** Statement *)

(** A call returned an interval with finite bounds, and [m] is not in it. *)
Definition interval_misses (r : res interval) (m : R) : bool :=
  match r with
  | Ok i => match ci_lower i, ci_upper i with
            | Fin lo, Fin hi => if Rlt_dec m lo then true else if Rlt_dec hi m then true else false
            | _, _ => false
            end
  | Err _ => false
  end.

(** Uniform logging over two actions, a policy that always plays the second, and a reward of 1 with probability [p]. *)
Definition rare_env (n : nat) (p : R) : benv unit := {|
  ev_n := n; ev_K := 2; ev_L := 1; ev_pos := fun _ => 0%nat; ev_ctx := fun _ => [(tt, 1)];
  ev_pb := fun _ _ _ => 1 / 2;
  ev_pe := fun _ a _ => if Nat.eqb a 1 then 1 else 0;
  ev_rd := fun _ _ _ => [(1, p); (0, 1 - p)] |}.

Lemma rare_env_ok n p : (0 < n)%nat -> 0 <= p <= 1 -> env_ok (rare_env n p) /\ common_support (rare_env n p).
Proof.
  intros Hn Hp. split.
  - assert (D1 : is_dist [(tt, 1)]) by (split; [intros b q [[= <- <-]|[]]; lra|cbn; lra]).
    assert (D2 : is_dist [(1, p); (0, 1 - p)]) by (split; [intros b q [[= <- <-]|[[= <- <-]|[]]]; lra|cbn; lra]).
    constructor; cbn [rare_env ev_n ev_K ev_L ev_pos ev_ctx ev_pb ev_pe ev_rd]; auto; intros.
    + lra.
    + cbn. lra.
    + destruct (Nat.eqb a 1); lra.
    + cbn. lra.
  - intros x a s Ha _. cbn. lra.
Qed.

Lemma rare_value n p : (0 < n)%nat -> policy_value (rare_env n p) = p.
Proof.
  intros Hn. unfold policy_value. cbn [rare_env ev_n ev_K ev_pos ev_ctx ev_pe].
  rewrite (avg_ext _ _ (fun _ => p)); [apply avg_const; auto|]. intros i Hi. unfold q_true. cbn. lra.
Qed.

Lemma rare_reward n p o q i : In (o, q) (log_dist (rare_env n p)) -> q <> 0 -> (i < n)%nat ->
  exists a r, nth_error o i = Some (tt, a, r) /\ (r = 0 \/ r = 1).
Proof.
  intros Ho Hq Hi. destruct (In_dprod_opt _ _ _ _ Ho Hq i Hi) as (y & w & E & I & _). rewrite E.
  unfold round_dist in I. apply In_dbind in I as ([] & p1 & p2 & _ & I2 & _).
  apply In_dbind in I2 as (a & ? & ? & _ & I2 & _). apply In_dmap in I2 as (r & -> & I2). exists a, r. split; auto.
  cbn in I2. destruct I2 as [[= <- _]|[[= <- _]|[]]]; auto.
Qed.

Lemma sum01 n g : (forall i, (i < n)%nat -> g i = 0 \/ g i = 1) -> sumn n g = 0 \/ 1 <= sumn n g.
Proof.
  induction n as [|k IH]; intros H; [left; reflexivity|]. cbn [sumn].
  destruct (IH ltac:(intros; apply H; lia)), (H k ltac:(lia)) as [->| ->]; lra.
Qed.

(** Whatever the number of rounds, the level, the number of resamples and the random draws, the interval of inverse propensity
    weighting can miss the policy value with probability arbitrarily close to one, even for binary rewards and weights of at
    most two. *)
Theorem C143_no_guarantee : forall n delta, (0 < n)%nat -> 0 < delta <= 1 ->
  exists e : benv unit, ev_n e = n /\ env_ok e /\ common_support e /\
    (forall x s a r p, In (r, p) (ev_rd e x s a) -> r = 0 \/ r = 1) /\
    (forall x a s, (a < ev_K e)%nat -> ev_pe e x a s <= 2 * ev_pb e x s a) /\
    forall lam alpha n_boot choice,
      0 <= alpha <= 1 -> (1 <= n_boot)%Z -> (forall b j, (j < n)%nat -> (choice b j < n)%nat) ->
      1 - delta <= prob (log_dist e) (fun o => let l := log_of e (ev_pb e) (fun _ _ _ => 0) o in
        interval_misses (ipw_like_interval (ipw_round (lam_num lam)) false (rewards l) (actions l) (policy l) (Some (pscores l)) (Some (positions l)) None
                           alpha n_boot choice) (policy_value e)).
Proof.
  intros n delta Hn Hd. assert (HN : 1 <= INR n) by (apply (le_INR 1); lia).
  set (p := delta / INR n). assert (Hp : 0 < p) by (apply Rdiv_lt_0_compat; lra).
  assert (Hp1 : p <= 1) by (unfold p; apply (Rmult_le_reg_r (INR n)); [lra|]; unfold Rdiv; rewrite Rmult_assoc, Rinv_l; lra).
  destruct (rare_env_ok n p Hn ltac:(lra)) as [He Hcs].
  exists (rare_env n p). split; [reflexivity|]. split; [auto|]. split; [auto|]. split.
  { intros x s a r q. cbn. intros [[= <- _]|[[= <- _]|[]]]; auto. }
  split. { intros x a s _. cbn. destruct (Nat.eqb a 1); lra. }
  intros lam alpha nb choice Ha Hnb Hc. rewrite rare_value by auto. unfold prob.
  set (e := rare_env n p) in *.
  assert (HD : is_dist (log_dist e)) by (apply is_dist_dprod; intros; apply is_dist_round; auto).
  set (rw := fun y : option (unit * nat * R) => match y with Some (_, _, r) => r | None => 0 end).
  assert (S : expect (log_dist e) (fun o => 1 - sumn n (fun i => rw (nth_error o i))) = 1 - delta).
  { rewrite expect_minus, expect_const by auto. f_equal. unfold log_dist. 
    etransitivity; [apply (expect_dprod_sumn_opt (ev_n e) (round_dist e) (fun _ => rw)); intros; apply is_dist_round; auto|].
    rewrite (sumn_ext _ _ (fun _ => p)).
    - rewrite sumn_const. cbn [e rare_env ev_n]. unfold p. field. lra.
    - intros i Hi. rewrite (L_Unbiased.expect_round e i _ (fun x a r => r)) by reflexivity. cbn. lra. }
  rewrite <- S. apply expect_le_supp; [auto|]. intros o q Ho Hq. cbv zeta.
  assert (R01 : forall i, (i < n)%nat -> rw (nth_error o i) = 0 \/ rw (nth_error o i) = 1).
  { intros i Hi. destruct (rare_reward n p o q i Ho Hq Hi) as (a & r & E & H). rewrite E. exact H. }
  set (l := log_of e (ev_pb e) (fun _ _ _ => 0) o).
  pose proof (accepted_log e He (ev_pb e) (fun _ _ _ => 0) o q ltac:(auto) Ho Hq) as A. fold l in A.
  destruct (Req_dec (sumn n (fun i => rw (nth_error o i))) 0) as [Z|Z].
  - assert (All0 : forall i, (i < n)%nat -> lg_r l i = 0).
    { intros i Hi. assert (H : rw (nth_error o i) = 0).
      { apply (sumn_zero_inv n (fun i => rw (nth_error o i))); auto. intros j Hj. destruct (R01 j Hj) as [->| ->]; lra. }
      exact H. }
    rewrite Z.
    destruct (C05_interval n (fun i => lg_r l i * clip lam (weight l i)) alpha nb choice 0 0 Hn Hc Ha Hnb) as (m & lo & hi & E & _ & H1 & H2 & H3 & _).
    { intros i Hi. rewrite (All0 i Hi). lra. }
    unfold ipw_like_interval, ipw_like_rounds. rewrite (choose_pscore_ok false l (Some (pscores l)) None) by reflexivity. cbn [bind].
    assert (PA : position_arg l (Some (positions l))) by (left; reflexivity).
    rewrite check_ok by auto. cbn [bind]. rewrite default_position_ok by auto.
    rewrite ipw_round_ok by auto. cbn [bind]. change (lg_n l) with n. rewrite E. cbn [interval_misses ci_lower ci_upper].
    destruct (Rlt_dec p lo); [lra|]. destruct (Rlt_dec hi p); lra.
  - assert (1 <= sumn n (fun i => rw (nth_error o i))).
    { destruct (sum01 n (fun i => rw (nth_error o i)) R01); [contradiction|auto]. }
    destruct (interval_misses _ _); lra.
Qed.

Print Assumptions C143_no_guarantee.

(** A nominal 95% interval over 10000 rounds that covers the policy value at most once in a thousand logs. *)
Example C143_case : exists e : benv unit, ev_n e = 10000%nat /\ env_ok e /\ common_support e /\
  forall choice, (forall b j, (j < 10000)%nat -> (choice b j < 10000)%nat) ->
  999 / 1000 <= prob (log_dist e) (fun o => let l := log_of e (ev_pb e) (fun _ _ _ => 0) o in
    interval_misses (ipw_like_interval (ipw_round PInf) false (rewards l) (actions l) (policy l) (Some (pscores l)) (Some (positions l)) None (1/20) 100 choice) (policy_value e)).
Proof.
  destruct (C143_no_guarantee (Z.to_nat 10000) (1/1000) ltac:(lia) ltac:(lra)) as (e & H1 & H2 & H3 & _ & _ & H). exists e.
  split; [exact H1|]. split; [auto|]. split; [auto|]. intros choice Hc.
  specialize (H None (1/20) 100%Z choice ltac:(lra) ltac:(lia) Hc). replace (999 / 1000) with (1 - 1 / 1000) by lra. exact H.
Qed.
