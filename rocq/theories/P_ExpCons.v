(** * P_ExpCons: exponential tail bounds and sample sizes for IPW, SNIPW and DR (C176). *)

From Coq Require Import Reals List ZArith Bool Lia Lra.
From Verif Require Import Num NpList M_Utils M_Estimators S_Base S_Prob S_Conc S_Estimators S_Env
  L_Num L_Base L_Prob L_Estimators L_EstProps L_Unbiased L_Conc L_Conc3 S_Examples L_Examples P_Bias P_BiasBound P_Conc.
Import ListNotations.
Open Scope R_scope.

(** ** Two-sided Hoeffding inequality for averages of bounded terms *)

(** [hoeffding] with a non-strict event. *)
Lemma hoeffding_le n (D : nat -> dist R) b t : (0 < n)%nat -> 0 < b -> 0 <= t ->
  (forall i, (i < n)%nat -> is_dist (D i) /\ within (D i) 0 b) ->
  prob (dprod n D) (fun o => if Rle_dec (avg n (fun i => mean (D i)) + t) (avg n (fun i => nth i o 0)) then true else false)
  <= exp (- (2 * INR n * (t * t) / (b * b))).
Proof.
  intros Hn Hb Ht H. assert (HN : 0 < INR n) by (apply lt_0_INR; auto).
  assert (HD : is_dist (dprod n D)) by (apply is_dist_dprod; intros; apply H; auto).
  set (s := 4 * t / (b * b)). assert (Hs : 0 <= s) by (unfold s; apply Rmult_le_pos; [lra|left; apply Rinv_0_lt_compat; nra]).
  set (c := exp (- (2 * INR n * (t * t) / (b * b)))).
  apply (Rle_trans _ (expect (dprod n D) (fun o => c * exp (sumn n (fun i => s * (nth i o 0 - mean (D i)) - s * s * (b * b) / 8))))).
  - apply prob_le_expect; auto.
    + intros. apply Rmult_le_pos; left; apply exp_pos.
    + intros o p Ho Hp E. destruct (Rle_dec _ _) as [Hlt|]; [|discriminate].
      unfold c. rewrite <- exp_plus. apply (Rle_trans _ (exp 0)); [rewrite exp_0; lra|].
      assert (Hx : 0 <= - (2 * INR n * (t * t) / (b * b)) + sumn n (fun i => s * (nth i o 0 - mean (D i)) - s * s * (b * b) / 8)).
      { rewrite sumn_minus, sumn_const.
        rewrite sumn_scal, sumn_minus.
        unfold avg in Hlt. set (S1 := sumn n (fun i => nth i o 0)) in *. set (S2 := sumn n (fun i => mean (D i))) in *.
        assert (Hd : INR n * t <= S1 - S2).
        { apply (Rmult_le_reg_r (/ INR n)); [apply Rinv_0_lt_compat; auto|]. unfold Rdiv in Hlt.
          replace (INR n * t * / INR n) with t by (field; lra). lra. }
        apply (Rle_trans _ (- (2 * INR n * (t * t) / (b * b)) + (s * (INR n * t) - INR n * (s * s * (b * b) / 8)))).
        - right. unfold s. field. lra.
        - apply Rplus_le_compat_l. apply Rplus_le_compat_r. apply Rmult_le_compat_l; auto. }
      destruct Hx as [Hx| <-]; [left; apply exp_increasing; auto|lra].
  - rewrite expect_scal. rewrite <- (Rmult_1_r c) at 2. apply Rmult_le_compat_l; [left; apply exp_pos|].
    apply (expect_dprod_exp_le1 n D (fun i x => s * (x - mean (D i)) - s * s * (b * b) / 8)).
    + intros; apply H; auto.
    + intros i Hi. destruct (H i Hi). apply mgf_hoeffding; auto.
Qed.

Section Tail.
  Context {A : Type} (D : nat -> dist A) (n : nat) (Hn : (0 < n)%nat).
  Hypothesis HD : forall i, (i < n)%nat -> is_dist (D i).

  (** Upper tail of terms with values in an interval of width [b]. *)
  Lemma upper_tail (g : nat -> option A -> R) lo b t : 0 < b -> 0 <= t ->
    (forall i y p, (i < n)%nat -> In (y, p) (D i) -> p <> 0 -> lo <= g i (Some y) <= lo + b) ->
    prob (dprod n D) (fun o => if Rle_dec (avg n (fun i => expect (D i) (fun y => g i (Some y))) + t) (avg n (fun i => g i (nth_error o i))) then true else false)
    <= exp (- (2 * INR n * (t * t) / (b * b))).
  Proof.
    intros Hb Ht Hg. set (G := fun i (y : option A) => g i y - lo).
    pose proof (hoeffding_le n (fun i => dmap (fun y => G i (Some y)) (D i)) b t Hn Hb Ht) as H.
    unfold prob in H. rewrite (expect_dprod_map n D G) in H.
    unfold prob. eapply Rle_trans; [|apply H].
    - right. apply expect_ext_all. intros o.
      assert (E1 : avg n (fun i => mean (dmap (fun y => G i (Some y)) (D i))) = avg n (fun i => expect (D i) (fun y => g i (Some y))) - lo).
      { rewrite <- (avg_const n lo Hn) at 1. rewrite <- avg_minus. apply avg_ext. intros i Hi. unfold mean. rewrite expect_dmap. unfold G.
        rewrite expect_minus, expect_const by auto. reflexivity. }
      assert (E2 : avg n (fun i => nth i (tab n (fun i => G i (nth_error o i))) 0) = avg n (fun i => g i (nth_error o i)) - lo).
      { rewrite <- (avg_const n lo Hn) at 1. rewrite <- avg_minus. apply avg_ext. intros i Hi. rewrite nth_tab by auto. reflexivity. }
      rewrite E1, E2. destruct (Rle_dec _ _), (Rle_dec _ _); auto; lra.
    - intros i Hi. split; [apply is_dist_dmap; auto|]. intros v p Hv Hp. apply In_dmap in Hv as (y & -> & Hy).
      pose proof (Hg i y p Hi Hy Hp). unfold G. lra.
  Qed.

  Lemma two_sided (g : nat -> option A -> R) lo b t : 0 < b -> 0 <= t ->
    (forall i y p, (i < n)%nat -> In (y, p) (D i) -> p <> 0 -> lo <= g i (Some y) <= lo + b) ->
    prob (dprod n D) (fun o => if Rle_dec t (Rabs (avg n (fun i => g i (nth_error o i)) - avg n (fun i => expect (D i) (fun y => g i (Some y))))) then true else false)
    <= 2 * exp (- (2 * INR n * (t * t) / (b * b))).
  Proof.
    intros Hb Ht Hg. pose proof (upper_tail g lo b t Hb Ht Hg) as U.
    pose proof (upper_tail (fun i y => -1 * g i y) (- (lo + b)) b t Hb Ht) as L.
    replace (2 * exp (- (2 * INR n * (t * t) / (b * b)))) with (exp (- (2 * INR n * (t * t) / (b * b))) + exp (- (2 * INR n * (t * t) / (b * b)))) by ring.
    eapply Rle_trans; [|apply Rplus_le_compat; [apply U|apply L]].
    - apply prob_union; [apply is_dist_dprod; auto|]. intros o p _ _ E.
      assert (E1 : avg n (fun i => -1 * g i (nth_error o i)) = - avg n (fun i => g i (nth_error o i))) by (rewrite avg_scal; ring).
      assert (E2 : avg n (fun i => expect (D i) (fun y => -1 * g i (Some y))) = - avg n (fun i => expect (D i) (fun y => g i (Some y)))).
      { rewrite (avg_ext n _ (fun i => -1 * expect (D i) (fun y => g i (Some y)))) by (intros; apply expect_scal). rewrite avg_scal. ring. }
      rewrite E1, E2. destruct (Rle_dec t _) as [H|]; [|discriminate].
      destruct (Rle_dec (_ + t) _) as [|N1]; [left; reflexivity|]. destruct (Rle_dec (_ + t) _) as [|N2]; [right; reflexivity|].
      exfalso. unfold Rabs in H. destruct (Rcase_abs _); lra.
    - intros i y p Hi Hy Hp. pose proof (Hg i y p Hi Hy Hp). lra.
  Qed.
End Tail.

(** ** The terms of the three estimators *)
Section Est.
  Context {X : Type} (e : benv X) (He : env_ok e) (W Rm : R).
  Hypothesis HW : forall x a s, (a < ev_K e)%nat -> ev_pe e x a s <= W * ev_pb e x s a.
  Hypothesis HRm : 0 < Rm.
  Hypothesis HR : forall x s a r p, (a < ev_K e)%nat -> In (r, p) (ev_rd e x s a) -> p <> 0 -> Rabs r <= Rm.

  Lemma wgt_range i x a r p : In ((x, a, r), p) (round_dist e i) -> p <> 0 ->
    0 <= wgt e x (ev_pos e i) a <= W /\ (a < ev_K e)%nat /\ Rabs r <= Rm.
  Proof.
    intros Hin Hp. destruct (round_support e i x a r p He Hin Hp) as (Ha & Hb & q & Hq & Hq0).
    pose proof (HW x a (ev_pos e i) Ha) as HWx. pose proof (eo_pe0 e He x a (ev_pos e i) Ha) as Hpe.
    split; [|split; [auto|eapply HR; eauto]]. unfold wgt.
    split; [apply Rmult_le_pos; auto; left; apply Rinv_0_lt_compat; auto|].
    apply (Rmult_le_reg_r (ev_pb e x (ev_pos e i) a)); auto. unfold Rdiv. rewrite Rmult_assoc, Rinv_l; lra.
  Qed.

  Lemma W_ge_1 : 1 <= W.
  Proof.
    rewrite <- (w_mean e He W HW). rewrite <- (avg_const (ev_n e) W (eo_n e He)). apply avg_le; [apply He|]. intros i Hi.
    rewrite <- (expect_const (round_dist e i) W (is_dist_round e He i Hi)). apply expect_le_supp; [apply is_dist_round; auto|].
    intros [[x a] r] p Hin Hp. destruct (wgt_range i x a r p Hin Hp) as [Hw _]. apply Hw.
  Qed.

  (** A product of a weight in [0, W] and a number of size at most [B]. *)
  Lemma wb w z B : 0 <= w <= W -> Rabs z <= B -> Rabs (w * z) <= W * B.
  Proof.
    intros Hw Hz. rewrite Rabs_mult, (Rabs_right w) by lra. apply Rmult_le_compat; try lra. apply Rabs_pos.
  Qed.
  Lemma abs_range z M : Rabs z <= M -> - M <= z <= - M + 2 * M.
  Proof. intros H. unfold Rabs in H. destruct (Rcase_abs z); lra. Qed.

  Lemma ipw_tail qh arg eps : 0 < eps -> (forall o, position_arg (log_of e (ev_pb e) qh o) arg) ->
    prob (log_dist e) (fun o => let l := log_of e (ev_pb e) qh o in
      estimate_off (ipw_value PInf false (rewards l) (actions l) (policy l) (Some (pscores l)) arg None) (policy_value e) eps)
    <= 2 * exp (- (INR (ev_n e) * eps ^ 2 / (2 * (W * Rm) ^ 2))).
  Proof.
    intros Heps Harg. pose proof W_ge_1 as HW1. assert (HM : 0 < W * Rm) by nra.
    pose proof (two_sided (round_dist e) (ev_n e) (eo_n e He) (is_dist_round e He) (ipw_term e) (- (W * Rm)) (2 * (W * Rm)) eps ltac:(lra) ltac:(lra)) as C.
    rewrite (ipw_mean e He W HW) in C.
    replace (INR (ev_n e) * eps ^ 2 / (2 * (W * Rm) ^ 2)) with (2 * INR (ev_n e) * (eps * eps) / (2 * (W * Rm) * (2 * (W * Rm)))) by (field; split; nra).
    eapply Rle_trans; [|apply C].
    - right. unfold prob. apply expect_ext. intros o p Ho Hp. cbv zeta.
      rewrite (ipw_value_ok None).
      + unfold estimate_off, spec_ipw. simpl clip.
        rewrite (avg_ext (ev_n e) (fun i => ipw_term e i (nth_error o i)) (fun i => lg_r (log_of e (ev_pb e) qh o) i * weight (log_of e (ev_pb e) qh o) i))
          by (intros; rewrite <- (ipw_term_log e qh); reflexivity).
        reflexivity.
      + eapply accepted_log; eauto.
      + apply Harg.
      + reflexivity.
    - intros i [[x a] r] p Hi Hin Hp. destruct (wgt_range i x a r p Hin Hp) as (Hw & Ha & Hr). apply abs_range. unfold ipw_term. apply wb; auto.
  Qed.

  Lemma dr_tail qh arg eps : 0 < eps -> (forall x a s, (a < ev_K e)%nat -> Rabs (qh x a s) <= Rm) ->
    (forall o, position_arg (log_of e (ev_pb e) qh o) arg) ->
    prob (log_dist e) (fun o => let l := log_of e (ev_pb e) qh o in
      estimate_off (dr_value PInf false (rewards l) (actions l) (policy l) (model l) (Some (pscores l)) arg None) (policy_value e) eps)
    <= 2 * exp (- (INR (ev_n e) * eps ^ 2 / (2 * ((1 + 2 * W) * Rm) ^ 2))).
  Proof.
    intros Heps HQ Harg. pose proof W_ge_1 as HW1. set (M := (1 + 2 * W) * Rm). assert (HM : 0 < M) by (unfold M; nra).
    pose proof (two_sided (round_dist e) (ev_n e) (eo_n e He) (is_dist_round e He) (dr_term e qh) (- M) (2 * M) eps ltac:(lra) ltac:(lra)) as C.
    rewrite (dr_mean e He W HW) in C.
    replace (INR (ev_n e) * eps ^ 2 / (2 * M ^ 2)) with (2 * INR (ev_n e) * (eps * eps) / (2 * M * (2 * M))) by (field; lra).
    eapply Rle_trans; [|apply C].
    - right. unfold prob. apply expect_ext. intros o p Ho Hp. cbv zeta.
      rewrite (dr_value_ok None).
      + unfold estimate_off, spec_dr. rewrite <- dr_sum.
        change (lg_n (log_of e (ev_pb e) qh o)) with (ev_n e).
        rewrite (avg_ext (ev_n e) (fun i => dr_term e qh i (nth_error o i)) (fun i => q_pi (log_of e (ev_pb e) qh o) i + clip None (weight (log_of e (ev_pb e) qh o) i) * (lg_r (log_of e (ev_pb e) qh o) i - q_at (log_of e (ev_pb e) qh o) i))); [reflexivity|].
        intros i Hi. destruct (In_dprod_opt _ _ _ _ Ho Hp i Hi) as ([[x a] r] & q & E & _ & _).
        rewrite (q_pi_log e He _ _ _ _ _ _ _ Hi E). unfold weight, q_at, dr_term, qpi, wgt, clip.
        cbn [lg_r lg_q lg_pi lg_a lg_p lg_pos log_of]. rewrite E. reflexivity.
      + eapply accepted_log; eauto.
      + apply Harg.
      + reflexivity.
    - intros i [[x a] r] p Hi Hin Hp. destruct (wgt_range i x a r p Hin Hp) as (Hw & Ha & Hr). apply abs_range. unfold dr_term.
      pose proof (qpi_bound e He Rm qh HQ x (ev_pos e i)) as Hq.
      assert (Hd : Rabs (r - qh x a (ev_pos e i)) <= 2 * Rm).
      { eapply Rle_trans; [apply Rabs_triang|]. rewrite Rabs_Ropp. pose proof (HQ x a (ev_pos e i) Ha). lra. }
      pose proof (wb _ _ _ Hw Hd). eapply Rle_trans; [apply Rabs_triang|]. unfold M. lra.
  Qed.

  Lemma snipw_tail qh arg eps : 0 < eps -> (forall o, position_arg (log_of e (ev_pb e) qh o) arg) ->
    prob (log_dist e) (fun o => let l := log_of e (ev_pb e) qh o in
      estimate_off (snipw_value false (rewards l) (actions l) (policy l) (Some (pscores l)) arg None) (policy_value e) eps)
    <= 2 * exp (- (INR (ev_n e) * eps ^ 2 / (32 * (W * Rm) ^ 2))) + 2 * exp (- (INR (ev_n e) / (2 * W ^ 2))).
  Proof.
    intros Heps Harg. pose proof W_ge_1 as HW1. pose proof (value_bound e He W Rm HW HR) as HV. assert (HN : 0 < INR (ev_n e)) by (apply lt_0_INR, He).
    assert (HM : 0 < W * Rm) by nra.
    set (V := policy_value e) in *.
    pose proof (two_sided (round_dist e) (ev_n e) (eo_n e He) (is_dist_round e He) (dev_term e) (- (W * (2 * Rm))) (2 * (W * (2 * Rm))) (eps / 2) ltac:(lra) ltac:(lra)) as C1.
    pose proof (two_sided (round_dist e) (ev_n e) (eo_n e He) (is_dist_round e He) (w_term e) 0 W (1 / 2) ltac:(lra) ltac:(lra)) as C2.
    rewrite (dev_mean e He W HW) in C1. rewrite (w_mean e He W HW) in C2.
    replace (INR (ev_n e) * eps ^ 2 / (32 * (W * Rm) ^ 2)) with (2 * INR (ev_n e) * (eps / 2 * (eps / 2)) / (2 * (W * (2 * Rm)) * (2 * (W * (2 * Rm))))) by (field; split; nra).
    replace (INR (ev_n e) / (2 * W ^ 2)) with (2 * INR (ev_n e) * (1 / 2 * (1 / 2)) / (W * W)) by (field; lra).
    eapply Rle_trans; [|apply Rplus_le_compat; [apply C1|apply C2]].
    - apply prob_union; [apply log_is_dist; auto|]. intros o p Ho Hp Hoff.
      destruct (Rle_dec (eps / 2) _) as [|N1]; [left; reflexivity|]. right. destruct (Rle_dec (1 / 2) _) as [|N2]; [reflexivity|]. exfalso.
      apply Rnot_le_lt in N1, N2. set (l := log_of e (ev_pb e) qh o) in *.
      assert (Ew : forall i, w_term e i (nth_error o i) = weight l i).
      { intros i. unfold w_term, weight, l, wgt. simpl. destruct (nth_error o i) as [[[x a] r]|]; [reflexivity|lra]. }
      assert (Ed : forall i, dev_term e i (nth_error o i) = weight l i * lg_r l i - V * weight l i).
      { intros i. unfold dev_term, weight, l, wgt. simpl. fold V. destruct (nth_error o i) as [[[x a] r]|]; [ring|lra]. }
      rewrite (avg_ext _ _ (weight l)) in N2 by (intros; apply Ew).
      rewrite (avg_ext _ _ (fun i => weight l i * lg_r l i - V * weight l i)), Rminus_0_r in N1 by (intros; apply Ed).
      assert (B : 1 / 2 < avg (ev_n e) (weight l)) by (unfold Rabs in N2; destruct (Rcase_abs _); lra).
      assert (Hs : 0 < sumn (ev_n e) (weight l)).
      { unfold avg in B. apply (Rmult_lt_reg_r (/ INR (ev_n e))); [apply Rinv_0_lt_compat; lra|]. unfold Rdiv in B. lra. }
      cbv zeta in Hoff. rewrite snipw_value_ok in Hoff.
      + unfold estimate_off in Hoff. destruct (Rle_dec _ _) as [Hle|]; [|discriminate]. revert Hle. apply Rlt_not_le.
        unfold spec_snipw. change (lg_n l) with (ev_n e).
        replace (sumn (ev_n e) (fun i => weight l i * lg_r l i) / sumn (ev_n e) (weight l) - V)
          with (avg (ev_n e) (fun i => weight l i * lg_r l i - V * weight l i) / avg (ev_n e) (weight l)).
        2:{ rewrite avg_minus, avg_scal. unfold avg. field. lra. }
        unfold Rdiv. rewrite Rabs_mult, Rabs_inv, (Rabs_right (avg (ev_n e) (weight l))) by lra.
        apply (Rmult_lt_reg_r (avg (ev_n e) (weight l))); [lra|]. rewrite Rmult_assoc, Rinv_l, Rmult_1_r by lra.
        apply (Rlt_le_trans _ (eps / 2)); auto. nra.
      + eapply accepted_log; eauto.
      + apply Harg.
      + reflexivity.
      + change (lg_n l) with (ev_n e). lra.
    - intros i [[x a] r] p Hi Hin Hp. destruct (wgt_range i x a r p Hin Hp) as (Hw & Ha & Hr). apply abs_range. unfold dev_term. apply wb; auto.
      eapply Rle_trans; [apply Rabs_triang|]. rewrite Rabs_Ropp. fold V. lra.
    - intros i [[x a] r] p Hi Hin Hp. destruct (wgt_range i x a r p Hin Hp) as (Hw & _). unfold w_term. lra.
  Qed.
End Est.

(** ** C176 *)
Theorem C176_ipw_exponential : forall (X : Type) (e : benv X) qh arg W Rm eps, env_ok e -> 0 < eps -> 0 < Rm ->
  (forall x a s, (a < ev_K e)%nat -> ev_pe e x a s <= W * ev_pb e x s a) ->
  (forall x s a r p, (a < ev_K e)%nat -> In (r, p) (ev_rd e x s a) -> p <> 0 -> Rabs r <= Rm) ->
  (forall o, position_arg (log_of e (ev_pb e) qh o) arg) ->
  prob (log_dist e) (fun o => let l := log_of e (ev_pb e) qh o in
    estimate_off (ipw_value PInf false (rewards l) (actions l) (policy l) (Some (pscores l)) arg None) (policy_value e) eps)
  <= 2 * exp (- (INR (ev_n e) * eps ^ 2 / (2 * (W * Rm) ^ 2))).
Proof. intros. apply ipw_tail; auto. Qed.

Theorem C176_dr_exponential : forall (X : Type) (e : benv X) qh arg W Rm eps, env_ok e -> 0 < eps -> 0 < Rm ->
  (forall x a s, (a < ev_K e)%nat -> ev_pe e x a s <= W * ev_pb e x s a) ->
  (forall x s a r p, (a < ev_K e)%nat -> In (r, p) (ev_rd e x s a) -> p <> 0 -> Rabs r <= Rm) ->
  (forall x a s, (a < ev_K e)%nat -> Rabs (qh x a s) <= Rm) ->
  (forall o, position_arg (log_of e (ev_pb e) qh o) arg) ->
  prob (log_dist e) (fun o => let l := log_of e (ev_pb e) qh o in
    estimate_off (dr_value PInf false (rewards l) (actions l) (policy l) (model l) (Some (pscores l)) arg None) (policy_value e) eps)
  <= 2 * exp (- (INR (ev_n e) * eps ^ 2 / (2 * ((1 + 2 * W) * Rm) ^ 2))).
Proof. intros. apply dr_tail; auto. Qed.

Theorem C176_snipw_exponential : forall (X : Type) (e : benv X) qh arg W Rm eps, env_ok e -> 0 < eps -> 0 < Rm ->
  (forall x a s, (a < ev_K e)%nat -> ev_pe e x a s <= W * ev_pb e x s a) ->
  (forall x s a r p, (a < ev_K e)%nat -> In (r, p) (ev_rd e x s a) -> p <> 0 -> Rabs r <= Rm) ->
  (forall o, position_arg (log_of e (ev_pb e) qh o) arg) ->
  prob (log_dist e) (fun o => let l := log_of e (ev_pb e) qh o in
    estimate_off (snipw_value false (rewards l) (actions l) (policy l) (Some (pscores l)) arg None) (policy_value e) eps)
  <= 2 * exp (- (INR (ev_n e) * eps ^ 2 / (32 * (W * Rm) ^ 2))) + 2 * exp (- (INR (ev_n e) / (2 * W ^ 2))).
Proof. intros. apply snipw_tail; auto. Qed.

(** The number of rounds that suffices for accuracy [eps] with failure probability [delta]: it grows with [ln (1 / delta)] only. *)
Lemma exp_size c y delta : 0 < c -> 0 < delta -> ln (c / delta) <= y -> c * exp (- y) <= delta.
Proof.
  intros Hc Hd H. assert (Hq : 0 < c / delta) by (apply Rmult_lt_0_compat; auto; apply Rinv_0_lt_compat; auto).
  assert (L : exp (- y) <= / (c / delta)).
  { rewrite <- (exp_ln (c / delta)) by auto. rewrite <- exp_Ropp.
    destruct (Rle_lt_or_eq_dec _ _ H) as [Hlt| ->]; [left; apply exp_increasing; lra|lra]. }
  apply (Rmult_le_compat_l c) in L; [|lra]. eapply Rle_trans; [apply L|]. right. field. lra.
Qed.

Theorem C176_sample_size : forall (X : Type) (e : benv X) qh arg W Rm eps delta, env_ok e -> 0 < eps -> 0 < Rm -> 0 < delta ->
  (forall x a s, (a < ev_K e)%nat -> ev_pe e x a s <= W * ev_pb e x s a) ->
  (forall x s a r p, (a < ev_K e)%nat -> In (r, p) (ev_rd e x s a) -> p <> 0 -> Rabs r <= Rm) ->
  (forall x a s, (a < ev_K e)%nat -> Rabs (qh x a s) <= Rm) ->
  (forall o, position_arg (log_of e (ev_pb e) qh o) arg) ->
  let n := INR (ev_n e) in
  let off (est : blog -> res num) := prob (log_dist e) (fun o => estimate_off (est (log_of e (ev_pb e) qh o)) (policy_value e) eps) in
  (2 * (W * Rm / eps) ^ 2 * ln (2 / delta) <= n ->
    off (fun l => ipw_value PInf false (rewards l) (actions l) (policy l) (Some (pscores l)) arg None) <= delta) /\
  (2 * ((1 + 2 * W) * Rm / eps) ^ 2 * ln (2 / delta) <= n ->
    off (fun l => dr_value PInf false (rewards l) (actions l) (policy l) (model l) (Some (pscores l)) arg None) <= delta) /\
  (32 * (W * Rm / eps) ^ 2 * ln (4 / delta) <= n -> 2 * W ^ 2 * ln (4 / delta) <= n ->
    off (fun l => snipw_value false (rewards l) (actions l) (policy l) (Some (pscores l)) arg None) <= delta).
Proof.
  intros X e qh arg W Rm eps delta He Heps HRm Hdel HW HR HQ Harg n off.
  pose proof (W_ge_1 e He W Rm HW HR) as HW1. assert (HM : 0 < W * Rm) by nra.
  assert (S : forall k M t L, 0 < k -> 0 < M -> 0 < t -> k * (M / t) ^ 2 * L <= n -> L <= n * t ^ 2 / (k * M ^ 2)).
  { intros k M t L Hk HMp Ht H. assert (HkM : 0 < k * (M / t) ^ 2) by (apply Rmult_lt_0_compat; auto; apply pow_lt; apply Rmult_lt_0_compat; auto; apply Rinv_0_lt_compat; auto).
    apply (Rmult_le_reg_l (k * (M / t) ^ 2)); auto. eapply Rle_trans; [apply H|]. right. field. repeat split; lra. }
  split; [|split].
  - intros Hn. eapply Rle_trans; [apply (C176_ipw_exponential X e qh arg W Rm eps); auto|]. apply exp_size; auto; [lra|]. apply S; auto; lra.
  - intros Hn. eapply Rle_trans; [apply (C176_dr_exponential X e qh arg W Rm eps); auto|]. apply exp_size; auto; [lra|]. apply S; auto; nra.
  - intros Hn Hn2. eapply Rle_trans; [apply (C176_snipw_exponential X e qh arg W Rm eps); auto|].
    replace delta with (delta / 2 + delta / 2) by lra. apply Rplus_le_compat; apply exp_size; try lra.
    + replace (2 / (delta / 2)) with (4 / delta) by (field; lra). apply S; auto; lra.
    + replace (2 / (delta / 2)) with (4 / delta) by (field; lra). fold n.
      replace (n / (2 * W ^ 2)) with (n * 1 ^ 2 / (2 * W ^ 2)) by (field; lra). apply S; lra.
Qed.

(** 3200 rounds, weights at most 2, binary rewards: IPW is within 0.1 of the policy value except with probability at most 2 exp(-4),
    where the second-moment bound of C121 only gives 1/16. *)
Example C176_example : forall qh, let e := ex_env_n (32 * 100) in
  prob (log_dist e) (fun o => let l := log_of e (ev_pb e) qh o in
    estimate_off (ipw_value PInf false (rewards l) (actions l) (policy l) (Some (pscores l)) None None) (policy_value e) (1/10)) <= 2 * exp (- 4).
Proof.
  intros qh e. eapply Rle_trans; [apply (C176_ipw_exponential bool e qh None 2 1 (1/10))|].
  - apply ex_env_n_ok. lia.
  - lra.
  - lra.
  - intros; apply ex_env_n_W; auto.
  - intros x s a r p Ha Hr Hp. pose proof (ex_env_n_R (32 * 100) x s a r p Ha Hr Hp). rewrite Rabs_right; lra.
  - intros o. right. repeat split; reflexivity.
  - right. change (ev_n e) with (32 * 100)%nat. rewrite mult_INR. rewrite !(INR_IZR_INZ _). simpl Z.of_nat. f_equal. f_equal. lra.
Qed.

Print Assumptions C176_ipw_exponential.
Print Assumptions C176_dr_exponential.
Print Assumptions C176_snipw_exponential.
Print Assumptions C176_sample_size.
