(** * P_BalancedCons: what BalancedInverseProbabilityWeighting converges to (C175). *)

From Coq Require Import Reals List ZArith Bool Lia Lra.
From Verif Require Import Num NpList M_Utils M_Estimators S_Base S_Prob S_Conc S_Estimators S_Env
  L_Num L_Base L_Prob L_Estimators L_EstProps L_Unbiased L_Conc L_Conc3 S_Examples L_Examples P_Bias P_Conc P_SlateSN P_MultiCons P_Conc2.
Import ListNotations.
Open Scope R_scope.

(** The estimated weights handed to the estimator: [wh] evaluated at the logged rounds. *)
Definition given_weights {X} (e : benv X) (wh : X -> nat -> nat -> R) (o : list (X * nat * R)) (i : nat) : R :=
  match nth_error o i with Some (x, a, _) => wh x a (ev_pos e i) | None => 0 end.
(** Mean of the clipped weights under the behaviour policy, and of the clipped weight times the reward. *)
Definition weight_mass {X} (e : benv X) lam (wh : X -> nat -> nat -> R) : R :=
  avg (ev_n e) (fun i => expect (ev_ctx e i) (fun x => sumn (ev_K e) (fun a => ev_pb e x (ev_pos e i) a * clip lam (wh x a (ev_pos e i))))).
Definition weighted_value {X} (e : benv X) lam (wh : X -> nat -> nat -> R) : R :=
  avg (ev_n e) (fun i => expect (ev_ctx e i) (fun x => sumn (ev_K e) (fun a =>
    ev_pb e x (ev_pos e i) a * clip lam (wh x a (ev_pos e i)) * q_true e x (ev_pos e i) a))).

Section BIPW.
  Context {X : Type} (e : benv X) (He : env_ok e) (lam : option R) (wh : X -> nat -> nat -> R) (B Rm : R).
  Hypothesis Hw : forall x a s, (a < ev_K e)%nat -> 0 <= wh x a s.
  Hypothesis Hlam : match lam with Some z => 0 <= z | None => True end.
  Hypothesis HB : forall x a s, (a < ev_K e)%nat -> clip lam (wh x a s) <= B.
  Hypothesis HR : forall x s a r p, (a < ev_K e)%nat -> In (r, p) (ev_rd e x s a) -> p <> 0 -> Rabs r <= Rm.
  Let c x a s := clip lam (wh x a s).
  Let mu := weight_mass e lam wh.
  Let L := weighted_value e lam wh / mu.
  Hypothesis Hmu : 0 < mu.
  Let num i (y : option (X * nat * R)) := match y with Some (x, a, r) => c x a (ev_pos e i) * r | None => 0 end.
  Let den i (y : option (X * nat * R)) := match y with Some (x, a, r) => c x a (ev_pos e i) | None => 0 end.

  Lemma c_pos x a s : (a < ev_K e)%nat -> 0 <= c x a s.
  Proof. intros Ha. unfold c, clip. destruct lam as [z|]; auto. apply Rmin_glb; auto. Qed.

  Lemma Rm_ge : 0 <= Rm.
  Proof.
    pose proof (eo_n e He) as Hn. pose proof (eo_ctx e He 0%nat Hn) as Hc.
    destruct (ev_ctx e 0%nat) as [|[x p] cx] eqn:Ec; [destruct Hc as [_ Hc]; simpl in Hc; lra|].
    pose proof (eo_pb1 e He x 0%nat) as H1. destruct (ev_K e) as [|K] eqn:EK; [simpl in H1; lra|].
    assert (Dr : is_dist (ev_rd e x 0%nat 0%nat)) by apply He.
    destruct (Rle_dec 0 Rm) as [|N]; auto. exfalso.
    assert (expect (ev_rd e x 0%nat 0%nat) (fun _ => 1) <= expect (ev_rd e x 0%nat 0%nat) (fun _ => 0)).
    { apply expect_le_supp; auto. intros r q Hr Hq. pose proof (HR x 0%nat 0%nat r q ltac:(lia) Hr Hq). pose proof (Rabs_pos r). lra. }
    rewrite !expect_const in H by auto. lra.
  Qed.

  Lemma den_round i : (i < ev_n e)%nat -> expect (round_dist e i) (fun y => den i (Some y))
    = expect (ev_ctx e i) (fun x => sumn (ev_K e) (fun a => ev_pb e x (ev_pos e i) a * c x a (ev_pos e i))).
  Proof.
    intros Hi. rewrite (expect_round e i _ (fun x a r => c x a (ev_pos e i))) by reflexivity. apply expect_ext_all. intros x. apply sumn_ext. intros a Ha.
    rewrite expect_const by apply He. ring.
  Qed.
  Lemma den_avg : avg (ev_n e) (fun i => expect (round_dist e i) (fun y => den i (Some y))) = mu.
  Proof. apply avg_ext. intros i Hi. rewrite den_round by auto. reflexivity. Qed.
  Lemma num_avg : avg (ev_n e) (fun i => expect (round_dist e i) (fun y => num i (Some y))) = weighted_value e lam wh.
  Proof.
    apply avg_ext. intros i Hi. rewrite (expect_round e i _ (fun x a r => c x a (ev_pos e i) * r)) by reflexivity. apply expect_ext_all. intros x. apply sumn_ext.
    intros a Ha. rewrite expect_scal. unfold q_true, c. ring.
  Qed.

  Lemma limit_range : Rabs L <= Rm.
  Proof.
    assert (Hn : (0 < ev_n e)%nat) by apply He. pose proof Rm_ge as HRm.
    assert (A : Rabs (weighted_value e lam wh) <= Rm * mu).
    { unfold weighted_value. eapply Rle_trans; [apply avg_abs; auto|]. unfold mu, weight_mass. rewrite <- avg_scal. apply avg_le; auto. intros i Hi.
      eapply Rle_trans; [apply expect_abs; apply He; auto|]. rewrite <- expect_scal. apply expect_le_supp; [apply He; auto|]. intros x p _ _.
      eapply Rle_trans; [apply sumn_abs|]. rewrite <- sumn_scal. apply sumn_le. intros a Ha. rewrite Rabs_mult, (Rabs_right (_ * _)).
      - rewrite (Rmult_comm Rm). apply Rmult_le_compat_l; [apply Rmult_le_pos; [apply He; auto|apply c_pos; auto]|].
        apply expect_bound; [apply He|]. intros r q Hr Hq. eapply HR; eauto.
      - apply Rle_ge, Rmult_le_pos; [apply He; auto|apply c_pos; auto]. }
    unfold L, Rdiv. rewrite Rabs_mult, Rabs_inv, (Rabs_right mu) by lra. apply (Rmult_le_reg_r mu); auto. rewrite Rmult_assoc, Rinv_l by lra. lra.
  Qed.

  Lemma c_moment i h M : (i < ev_n e)%nat -> 0 <= M -> (forall x a r p, (a < ev_K e)%nat -> In (r, p) (ev_rd e x (ev_pos e i) a) -> p <> 0 -> h r * h r <= M) ->
    expect (round_dist e i) (fun y => let '(x, a, r) := y in c x a (ev_pos e i) * h r * (c x a (ev_pos e i) * h r))
    <= B * M * expect (round_dist e i) (fun y => den i (Some y)).
  Proof.
    intros Hi HM Hh. rewrite den_round by auto. rewrite (expect_round e i _ (fun x a r => c x a (ev_pos e i) * h r * (c x a (ev_pos e i) * h r))) by reflexivity.
    rewrite <- expect_scal. apply expect_le_supp; [apply He; auto|]. intros x p _ _. rewrite <- sumn_scal. apply sumn_le. intros a Ha.
    pose proof (c_pos x a (ev_pos e i) Ha) as C0. pose proof (HB x a (ev_pos e i) Ha) as C1. fold (c x a (ev_pos e i)) in C1. set (z := c x a (ev_pos e i)) in *.
    pose proof (eo_pb0 e He x (ev_pos e i) a Ha) as P0.
    replace (B * M * (ev_pb e x (ev_pos e i) a * z)) with (z * B * M * ev_pb e x (ev_pos e i) a) by ring. apply Rmult_le_compat_r; auto.
    rewrite <- (expect_const (ev_rd e x (ev_pos e i) a) (z * B * M)) by apply He. apply expect_le_supp; [apply He|]. intros r q Hr Hq.
    pose proof (Hh x a r q Ha Hr Hq) as H. pose proof (Rle_0_sqr (h r)) as H0. unfold Rsqr in H0.
    replace (z * h r * (z * h r)) with (z * z * (h r * h r)) by ring. apply Rmult_le_compat; auto; [apply Rmult_le_pos; auto|apply Rmult_le_compat_l; auto].
  Qed.

  Lemma bipw_limit qh arg eps : 0 < eps -> (forall o, position_arg (log_of e (ev_pb e) qh o) arg) ->
    prob (log_dist e) (fun o => let l := log_of e (ev_pb e) qh o in
      estimate_off (bipw_value (lam_num lam) (rewards l) (actions l) (policy l) (tabF (ev_n e) (given_weights e wh o)) arg) L eps)
    <= 16 * B * Rm ^ 2 / (INR (ev_n e) * mu * eps ^ 2) + 4 * B / (INR (ev_n e) * mu).
  Proof.
    intros Heps Harg. pose proof Rm_ge as HRm. assert (Hn : (0 < ev_n e)%nat) by apply He. assert (HN : 0 < INR (ev_n e)) by (apply lt_0_INR; auto).
    pose proof (is_dist_round e He) as HD.
    pose proof (ratio_off (round_dist e) (ev_n e) num den L mu (B * (2 * Rm * (2 * Rm)) * mu) (B * (1 * 1) * mu) eps Hn Heps Hmu HD) as C.
    replace (16 * B * Rm ^ 2 / (INR (ev_n e) * mu * eps ^ 2) + 4 * B / (INR (ev_n e) * mu)) with
      (4 * (B * (2 * Rm * (2 * Rm)) * mu) / (INR (ev_n e) * (mu * mu) * (eps * eps)) + 4 * (B * (1 * 1) * mu) / (INR (ev_n e) * (mu * mu))) by (field; lra).
    eapply Rle_trans; [|apply C].
    - apply expect_le_supp; [apply log_is_dist; auto|]. intros o p Ho Hp. cbv zeta.
      match goal with |- (if ?a then 1 else 0) <= (if ?b then 1 else 0) => enough (I : a = true -> b = true) by (destruct a; [rewrite I by reflexivity; lra|destruct b; lra]) end.
      intros Hoff. set (l := log_of e (ev_pb e) qh o) in *.
      assert (Ed : avg (ev_n e) (fun i => den i (nth_error o i)) = avg (ev_n e) (fun i => clip lam (given_weights e wh o i))).
      { apply avg_ext. intros i Hi. destruct (In_dprod_opt _ _ _ _ Ho Hp i Hi) as ([[x a] r] & q & E & _ & _). unfold den, given_weights. rewrite E. reflexivity. }
      assert (En : avg (ev_n e) (fun i => num i (nth_error o i)) = avg (ev_n e) (fun i => clip lam (given_weights e wh o i) * lg_r l i)).
      { apply avg_ext. intros i Hi. destruct (In_dprod_opt _ _ _ _ Ho Hp i Hi) as ([[x a] r] & q & E & _ & _). unfold num, given_weights, l. cbn [log_of lg_r]. rewrite E. reflexivity. }
      rewrite Ed, En. destruct (Rlt_dec 0 _) as [Hd|]; [|reflexivity].
      assert (Hs : 0 < sumn (ev_n e) (fun i => clip lam (given_weights e wh o i))).
      { unfold avg in Hd. apply (Rmult_lt_reg_r (/ INR (ev_n e))); [apply Rinv_0_lt_compat; lra|]. unfold Rdiv in Hd. lra. }
      change (ev_n e) with (lg_n l) in Hoff. rewrite bipw_value_ok in Hoff; [|eapply accepted_log; eauto|apply Harg| |change (lg_n l) with (ev_n e); lra].
      2:{ intros i Hi. pose proof (In_dprod_opt _ _ _ _ Ho Hp i Hi) as ([[x a] r] & q & E & Hq & Hq0). unfold given_weights. rewrite E. apply Hw.
          unfold round_dist in Hq. apply In_dbind in Hq as (x' & p1 & p2 & _ & H & ->). apply In_dbind in H as (a' & p3 & p4 & Ha & H & ->).
          apply In_dmap in H as (r' & E' & _). injection E' as <- <- <-. apply In_dtab in Ha as [Ha _]. exact Ha. }
      cbn [estimate_off] in Hoff. unfold spec_bipw in Hoff. change (lg_n l) with (ev_n e) in Hoff.
      match type of Hoff with (if Rle_dec eps (Rabs (?a - _)) then _ else _) = _ => set (u := a) in * end.
      match goal with |- (if Rle_dec eps (Rabs (?a - _)) then _ else _) = _ => replace a with u; [exact Hoff|] end.
      unfold u, avg. field. split; lra.
    - rewrite (avg_ext _ _ (fun i => expect (round_dist e i) (fun y => num i (Some y)) - L * expect (round_dist e i) (fun y => den i (Some y))))
        by (intros; rewrite <- expect_scal, <- expect_minus; reflexivity).
      rewrite avg_minus, avg_scal, num_avg, den_avg. unfold L. field. lra.
    - apply den_avg.
    - apply (Rle_trans _ (avg (ev_n e) (fun i => B * (2 * Rm * (2 * Rm)) * expect (round_dist e i) (fun y => den i (Some y))))); [|rewrite avg_scal, den_avg; lra].
      apply avg_le; auto. intros i Hi.
      eapply Rle_trans; [|apply (c_moment i (fun r => r - L) (2 * Rm * (2 * Rm)) Hi); [nra|]].
      + right. apply expect_ext_all. intros [[x a] r]. unfold num, den. ring.
      + intros x a r p Ha Hr Hp. apply sq_le; [lra|]. pose proof (HR x _ a r p Ha Hr Hp). pose proof limit_range.
        eapply Rle_trans; [apply Rabs_triang|]. rewrite Rabs_Ropp. lra.
    - apply (Rle_trans _ (avg (ev_n e) (fun i => B * (1 * 1) * expect (round_dist e i) (fun y => den i (Some y))))); [|rewrite avg_scal, den_avg; lra].
      apply avg_le; auto. intros i Hi.
      eapply Rle_trans; [|apply (c_moment i (fun _ => 1) (1 * 1) Hi); [lra|intros; lra]].
      right. apply expect_ext_all. intros [[x a] r]. unfold den. ring.
  Qed.
End BIPW.

(** Weights from any fixed function [wh] (a density-ratio model fitted on other data): the estimate converges to the mean reward of
    the logging policy reweighted by the clipped weights. *)
Theorem C175_balanced_limit : forall X (e : benv X) lam wh B Rm qh arg eps, env_ok e -> 0 < eps ->
  (forall x a s, (a < ev_K e)%nat -> 0 <= wh x a s) -> match lam with Some z => 0 <= z | None => True end ->
  (forall x a s, (a < ev_K e)%nat -> clip lam (wh x a s) <= B) ->
  (forall x s a r p, (a < ev_K e)%nat -> In (r, p) (ev_rd e x s a) -> p <> 0 -> Rabs r <= Rm) ->
  0 < weight_mass e lam wh -> (forall o, position_arg (log_of e (ev_pb e) qh o) arg) ->
  prob (log_dist e) (fun o => let l := log_of e (ev_pb e) qh o in
    estimate_off (bipw_value (lam_num lam) (rewards l) (actions l) (policy l) (tabF (ev_n e) (given_weights e wh o)) arg)
      (weighted_value e lam wh / weight_mass e lam wh) eps)
  <= 16 * B * Rm ^ 2 / (INR (ev_n e) * weight_mass e lam wh * eps ^ 2) + 4 * B / (INR (ev_n e) * weight_mass e lam wh).
Proof. intros. apply bipw_limit; auto. Qed.

(** If the weights are the true density ratios up to a constant factor [c], and are not clipped, that limit is the policy value. *)
Theorem C175_balanced_consistent : forall X (e : benv X) lam wh c B Rm qh arg eps, env_ok e -> 0 < eps -> 0 < c ->
  (forall x a s, (a < ev_K e)%nat -> 0 <= wh x a s <= B /\ wh x a s * ev_pb e x s a = c * ev_pe e x a s) ->
  match lam with Some z => B <= z | None => True end ->
  (forall x s a r p, (a < ev_K e)%nat -> In (r, p) (ev_rd e x s a) -> p <> 0 -> Rabs r <= Rm) ->
  (forall o, position_arg (log_of e (ev_pb e) qh o) arg) ->
  prob (log_dist e) (fun o => let l := log_of e (ev_pb e) qh o in
    estimate_off (bipw_value (lam_num lam) (rewards l) (actions l) (policy l) (tabF (ev_n e) (given_weights e wh o)) arg) (policy_value e) eps)
  <= 16 * (B / c) * Rm ^ 2 / (INR (ev_n e) * eps ^ 2) + 4 * (B / c) / INR (ev_n e).
Proof.
  intros X e lam wh c B Rm qh arg eps He Heps Hc HW Hlam HR Harg. assert (Hn : (0 < ev_n e)%nat) by apply He. assert (HN : 0 < INR (ev_n e)) by (apply lt_0_INR; auto).
  assert (Cl : forall x a s, (a < ev_K e)%nat -> clip lam (wh x a s) = wh x a s).
  { intros x a s Ha. destruct (HW x a s Ha) as [[_ Hu] _]. destruct lam as [z|]; simpl; auto. apply Rmin_left. lra. }
  assert (M : weight_mass e lam wh = c).
  { unfold weight_mass. rewrite <- (avg_const (ev_n e) c) by auto. apply avg_ext. intros i Hi.
    transitivity (expect (ev_ctx e i) (fun _ => c)); [|apply expect_const, He; auto]. apply expect_ext_all. intros x.
    rewrite (sumn_ext _ _ (fun a => c * ev_pe e x a (ev_pos e i))). rewrite sumn_scal, (eo_pe1 e He). ring.
    intros a Ha. rewrite Cl by auto. rewrite Rmult_comm. apply (HW x a _ Ha). }
  assert (V : weighted_value e lam wh = c * policy_value e).
  { unfold weighted_value, policy_value. rewrite <- avg_scal. apply avg_ext. intros i Hi. rewrite <- expect_scal. apply expect_ext_all. intros x.
    rewrite <- sumn_scal. apply sumn_ext. intros a Ha. rewrite Cl by auto. destruct (HW x a (ev_pos e i) Ha) as [_ E].
    rewrite (Rmult_comm (ev_pb _ _ _ _)), E. ring. }
  pose proof (C175_balanced_limit X e lam wh B Rm qh arg eps He Heps) as H. rewrite M, V in H.
  replace (c * policy_value e / c) with (policy_value e) in H by (field; lra).
  eapply Rle_trans; [apply H; auto|].
  - intros x a s Ha. apply (HW x a s Ha).
  - destruct lam as [z|]; auto. assert (0 <= B); [|lra]. destruct (Nat.eq_dec (ev_K e) 0) as [E|E].
    + exfalso. pose proof (eo_ctx e He 0%nat Hn) as Dc. destruct (ev_ctx e 0%nat) as [|[x q] d] eqn:Ec.
      * pose proof (expect_const [] 1 Dc) as E1. simpl in E1. lra.
      * pose proof (eo_pb1 e He x 0%nat) as E1. rewrite E in E1. simpl in E1. lra.
    + pose proof (eo_ctx e He 0%nat Hn) as Dc. destruct (ev_ctx e 0%nat) as [|[x q] d] eqn:Ec.
      * pose proof (expect_const [] 1 Dc) as E1. simpl in E1. lra.
      * destruct (HW x 0%nat 0%nat ltac:(lia)). lra.
  - intros x a s Ha. rewrite Cl by auto. apply (HW x a s Ha).
  - right. field. repeat split; lra.
Qed.

(** Weights that are twice the true ones: the constant cancels. *)
Example C175_example : forall n qh, (0 < n)%nat ->
  prob (log_dist (ex_env_n n)) (fun o => let l := log_of (ex_env_n n) (ev_pb (ex_env_n n)) qh o in
    estimate_off (bipw_value PInf (rewards l) (actions l) (policy l)
      (tabF n (given_weights (ex_env_n n) (fun x a s => 2 * (ev_pe (ex_env_n n) x a s / ev_pb (ex_env_n n) x s a)) o)) None) (policy_value (ex_env_n n)) 1) <= 40 / INR n.
Proof.
  intros n qh Hn. assert (HN : 0 < INR n) by (apply lt_0_INR; auto). pose proof (ex_env_n_ok n Hn) as He.
  eapply Rle_trans; [apply (C175_balanced_consistent bool (ex_env_n n) None (fun x a s => 2 * (ev_pe (ex_env_n n) x a s / ev_pb (ex_env_n n) x s a)) 2 4 1 qh None 1 He)|].
  - lra.
  - lra.
  - intros x a s Ha. pose proof (ex_env_n_W n x a s Ha) as H1. pose proof (eo_pe0 _ He x a s Ha) as H2. pose proof (eo_pb0 _ He x s a Ha) as H3.
    set (p := ev_pe _ _ _ _) in *. set (b := ev_pb _ _ _ _) in *. destruct (Req_dec b 0) as [E|E].
    + rewrite E in *. assert (Ep : p = 0) by lra. rewrite Ep. unfold Rdiv. rewrite Rmult_0_l. lra.
    + assert (0 <= p / b) by (apply Rmult_le_pos; [auto|left; apply Rinv_0_lt_compat; lra]).
      assert (p / b <= 2) by (apply (Rmult_le_reg_r b); [lra|]; unfold Rdiv; rewrite Rmult_assoc, Rinv_l by auto; lra). split; [lra|]. field. auto.
  - exact I.
  - intros x s a r p Ha Hr Hp. pose proof (ex_env_n_R n x s a r p Ha Hr Hp). rewrite Rabs_right; lra.
  - intros o. right. repeat split; reflexivity.
  - right. change (ev_n (ex_env_n n)) with n. field. lra.
Qed.
Print Assumptions C175_balanced_limit.
Print Assumptions C175_balanced_consistent.
