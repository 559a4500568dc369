(** * P_EmbedExp: exponential tail bound for the marginalised IPW estimator (C180). *)

From Coq Require Import Reals List ZArith Lia Lra Bool.
From Verif Require Import Num NpList M_Utils M_Estimators M_Embed S_Base S_Prob S_Conc S_Estimators S_Embed
  L_Num L_Base L_Prob L_Estimators L_Unbiased L_Conc L_Conc3 L_Embed L_EmbedUnb L_Examples P_SlateSN P_Embed P_EmbedVar P_Bias P_MultiCons P_Conc2
  P_EmbedCons P_ExpCons.
Import ListNotations.
Open Scope R_scope.

Section Tail.
  Context {X : Type} (e : eenv X) (He : eenv_ok e) (W Rm : R) (HW0 : 0 < W) (HRm : 0 < Rm).
  Hypothesis HW : forall x s v, pr (emb_under e (en_pe e x s)) v <= W * pr (emb_under e (en_pb e x s)) v.
  Hypothesis HR : forall x s v r p, In (r, p) (en_rd e x s v) -> p <> 0 -> Rabs r <= Rm.
  Hypothesis Hf : factorises e.

  Definition mterm (i : nat) (y : option (X * nat * list nat * R)) : R :=
    match y with Some (x, a, v, r) => pr (emb_under e (en_pe e x (en_pos e i))) v / pr (emb_under e (en_pb e x (en_pos e i))) v * r | None => 0 end.

  Lemma mterm_bound i y p : In (y, p) (e_round e i) -> p <> 0 -> Rabs (mterm i (Some y)) <= W * Rm.
  Proof.
    destruct y as [[[x a] v] r]. intros Hin Hp. destruct (In_eround e He i x a v r p Hin Hp) as (_ & Hb & _).
    assert (S : exists q, In (r, q) (en_rd e x (en_pos e i) v) /\ q <> 0).
    { unfold e_round in Hin. apply In_dbind in Hin as (x' & p1 & p2 & Hx & H & ->). apply In_dbind in H as (a' & p3 & p4 & Ha & H & ->).
      apply In_dbind in H as (v' & p5 & p6 & Hv & H & ->). apply In_dmap in H as (r' & E & Hr). injection E as <- <- <- <-.
      exists p6. split; auto. intros Z. apply Hp. rewrite Z. ring. }
    destruct S as (q & Hq & Hq0). destruct (is_dist_emb e He x (en_pos e i)) as [_ De]. pose proof (pr_nonneg _ v De) as Hn.
    pose proof (HW x (en_pos e i) v) as Hw. unfold mterm. apply (wb W); [|eapply HR; eauto].
    split; [apply Rmult_le_pos; auto; left; apply Rinv_0_lt_compat; auto|].
    apply (Rmult_le_reg_r (pr (emb_under e (en_pb e x (en_pos e i))) v)); auto. unfold Rdiv. rewrite Rmult_assoc, Rinv_l; lra.
  Qed.

  Lemma mipw_tail sel m argsort T arg eps : 0 < eps -> (sel = None \/ en_D e = 1%nat) -> (forall o, position_arg (as_log (elog_of e o)) arg) ->
    prob (e_logs e) (fun o => estimate_off (value_on false sel m argsort T (elog_of e o) arg) (e_value e) eps)
    <= 2 * exp (- (INR (en_n e) * eps ^ 2 / (2 * (W * Rm) ^ 2))).
  Proof.
    intros Heps Hsel Harg. assert (Hn : (0 < en_n e)%nat) by apply He. assert (HM : 0 < W * Rm) by (apply Rmult_lt_0_compat; auto).
    assert (HD : forall i, (i < en_n e)%nat -> is_dist (e_round e i)) by (intros; apply is_dist_eround; auto).
    pose proof (two_sided (e_round e) (en_n e) Hn HD mterm (- (W * Rm)) (2 * (W * Rm)) eps ltac:(lra) ltac:(lra)) as C.
    assert (E : avg (en_n e) (fun i => expect (e_round e i) (fun y => mterm i (Some y))) = e_value e) by exact (num_marg e He W HW).
    rewrite E in C.
    replace (INR (en_n e) * eps ^ 2 / (2 * (W * Rm) ^ 2)) with (2 * INR (en_n e) * (eps * eps) / (2 * (W * Rm) * (2 * (W * Rm)))) by (field; split; lra).
    eapply Rle_trans; [|apply C].
    - apply expect_le_supp; [apply is_dist_dprod; auto|]. intros o p Ho Hp.
      rewrite value_ok; [|eapply elog_accepted; eauto|apply Harg|exact Hsel]. cbn [estimate_off]. unfold spec_mipw. cbn [elog_of el_n].
      assert (G : forall i, (i < en_n e)%nat -> e_weight (elog_of e o) i * el_r (elog_of e o) i = mterm i (nth_error o i)) by (intros i Hi; exact (proj2 (log_weight e He Hf o p i Ho Hp Hi))).
      rewrite (avg_ext _ _ (fun i => mterm i (nth_error o i)) G). apply Rle_refl.
    - intros i y p Hi Hin Hp. apply abs_range. eapply mterm_bound; eauto.
  Qed.
End Tail.

(** ** C180 *)
Theorem C180_mipw_exponential : forall X (e : eenv X) W Rm sel m argsort T arg eps, eenv_ok e -> factorises e -> 0 < eps -> 0 < W -> 0 < Rm ->
  (forall x s v, pr (emb_under e (en_pe e x s)) v <= W * pr (emb_under e (en_pb e x s)) v) ->
  (forall x s v r p, In (r, p) (en_rd e x s v) -> p <> 0 -> Rabs r <= Rm) ->
  (sel = None \/ en_D e = 1%nat) -> (forall o, position_arg (as_log (elog_of e o)) arg) ->
  prob (e_logs e) (fun o => estimate_off (value_on false sel m argsort T (elog_of e o) arg) (e_value e) eps)
  <= 2 * exp (- (INR (en_n e) * eps ^ 2 / (2 * (W * Rm) ^ 2))).
Proof. intros. apply mipw_tail; auto. Qed.

Theorem C180_sample_size : forall X (e : eenv X) W Rm sel m argsort T arg eps delta, eenv_ok e -> factorises e -> 0 < eps -> 0 < W -> 0 < Rm -> 0 < delta ->
  (forall x s v, pr (emb_under e (en_pe e x s)) v <= W * pr (emb_under e (en_pb e x s)) v) ->
  (forall x s v r p, In (r, p) (en_rd e x s v) -> p <> 0 -> Rabs r <= Rm) ->
  (sel = None \/ en_D e = 1%nat) -> (forall o, position_arg (as_log (elog_of e o)) arg) ->
  2 * (W * Rm / eps) ^ 2 * ln (2 / delta) <= INR (en_n e) ->
  prob (e_logs e) (fun o => estimate_off (value_on false sel m argsort T (elog_of e o) arg) (e_value e) eps) <= delta.
Proof.
  intros X e W Rm sel m argsort T arg eps delta He Hf Heps HW0 HRm Hdel HW HR Hsel Harg Hn.
  eapply Rle_trans; [apply (C180_mipw_exponential X e W Rm sel m argsort T arg eps); auto|]. apply exp_size; auto; [lra|].
  assert (HM : 0 < W * Rm) by (apply Rmult_lt_0_compat; auto). set (M := W * Rm) in *.
  assert (HkM : 0 < 2 * (M / eps) ^ 2) by (apply Rmult_lt_0_compat; [lra|]; apply pow_lt; apply Rmult_lt_0_compat; auto; apply Rinv_0_lt_compat; auto).
  apply (Rmult_le_reg_l (2 * (M / eps) ^ 2)); auto. eapply Rle_trans; [apply Hn|]. right. field. split; lra.
Qed.

(** The behaviour policy of [shared_env] never plays action 2 (so the common support IPW needs is missing); 1280 rounds bring MIPW within 1/4 except with probability 2 exp(-10). *)
Example C180_example : forall sel m argsort T,
  prob (e_logs (shared_env 1280)) (fun o => estimate_off (value_on false sel m argsort T (elog_of (shared_env 1280) o) None) (e_value (shared_env 1280)) (1 / 4)) <= 2 * exp (- 10).
Proof.
  intros sel m argsort T. assert (He : eenv_ok (shared_env 1280)) by (apply shared_ok; lia).
  assert (Hf : factorises (shared_env 1280)) by (apply one_dim_factorises; auto).
  eapply Rle_trans; [apply (C180_mipw_exponential bool (shared_env 1280) 2 1); auto; try lra; [apply shared_W|apply shared_R|intros o; right; simpl; auto]|].
  right. change (en_n (shared_env 1280)) with 1280%nat. rewrite !(INR_IZR_INZ _). simpl Z.of_nat. f_equal. f_equal. lra.
Qed.

Print Assumptions C180_mipw_exponential.
Print Assumptions C180_sample_size.
