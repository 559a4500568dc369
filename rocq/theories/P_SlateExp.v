(** * P_SlateExp: exponential tail bounds for the slate estimators (C179). *)

From Coq Require Import Reals List ZArith Bool Lia Lra Psatz.
From Verif Require Import Num NpList M_Utils M_Slate S_Base S_Prob S_Slate S_Conc L_Num L_Base L_Prob L_Unbiased
  L_Slate L_SlateEst L_SlateUnb L_Conc L_Conc3 P_Slate P_SlateVar P_SlateSN P_ExpCons.
Import ListNotations.
Open Scope R_scope.

Section Tail.
  Context {X : Type} (e : senv X) (He : senv_ok e) (Rm W : R) (HRm : 0 < Rm) (HW0 : 0 < W).
  Hypothesis HR : forall x s r p k, In (r, p) (se_rd e x s) -> p <> 0 -> (k < se_L e)%nat -> Rabs (nth k r 0) <= Rm.

  Lemma sterm_bound kd i y p : ratio_bound e kd W -> In (y, p) (slate_round e i) -> p <> 0 ->
    Rabs (sterm e kd (Some y)) <= INR (se_L e) * (W * Rm).
  Proof.
    destruct y as [[x s] r]. intros HW Hin Hp.
    assert (S : (exists q, In (s, q) (se_mu e x) /\ q <> 0) /\ exists q, In (r, q) (se_rd e x s) /\ q <> 0).
    { unfold slate_round in Hin. apply In_dbind in Hin as (x' & q1 & y & H1 & H2 & ->).
      apply In_dbind in H2 as (s' & q2 & z & H2 & H3 & ->). apply In_dmap in H3 as (r' & E & H3).
      injection E as -> -> ->. split; [exists q2|exists z]; (split; [auto|intros ->; apply Hp; lra]). }
    destruct S as [(q & Hq & Hq0) (q' & Hr & Hr0)].
    unfold sterm. eapply Rle_trans; [apply sumn_abs|]. rewrite <- sumn_const. apply sumn_le. intros k Hk.
    pose proof (propensity_pos kd k (se_mu e x) s q (sv_mu e He x) Hq Hq0) as Hm.
    pose proof (propensity_bounds kd k (se_nu e x) s (sv_nu e He x)) as [Hn _]. pose proof (HW x s k Hk) as Hw.
    rewrite Rmult_comm. apply (wb W); [|apply (HR x s r q' k); auto].
    split; [apply Rmult_le_pos; auto; left; apply Rinv_0_lt_compat; auto|].
    apply (Rmult_le_reg_r (propensity kd k (se_mu e x) s)); auto. unfold Rdiv. rewrite Rmult_assoc, Rinv_l; lra.
  Qed.

  Lemma ips_tail kd eps : ratio_bound e kd W -> reward_structure e kd -> 0 < eps ->
    prob (slate_logs e) (fun o => let l := slate_log e kd o in
      estimate_off (ips_estimator kd (s_ids l) (s_rew l) (s_pos l) (s_p l) (s_pe l)) (slate_policy_value e) eps)
    <= 2 * exp (- (INR (se_n e) * eps ^ 2 / (2 * (INR (se_L e) * W * Rm) ^ 2))).
  Proof.
    intros HW Hstr Heps. assert (HL : 0 < INR (se_L e)) by (apply lt_0_INR, He). set (M := INR (se_L e) * (W * Rm)).
    assert (HM : 0 < M) by (unfold M; repeat apply Rmult_lt_0_compat; auto).
    replace (INR (se_L e) * W * Rm) with M by (unfold M; ring).
    replace (INR (se_n e) * eps ^ 2 / (2 * M ^ 2)) with (2 * INR (se_n e) * (eps * eps) / (2 * M * (2 * M))) by (field; lra).
    eapply Rle_trans.
    2:{ apply (two_sided (slate_round e) (se_n e) (sv_n e He) ltac:(intros; apply is_dist_slate_round; auto) (fun _ => sterm e kd) (- M) (2 * M) eps); [lra|lra|].
        intros i y p Hi Hin Hp. apply abs_range. eapply sterm_bound; eauto. }
    right. unfold prob, slate_logs. apply expect_ext. intros o p Ho Hp. rewrite (sterm_mean e He kd W HW Hstr).
    cbv zeta. rewrite (ips_on_log e He kd o p Ho Hp). unfold estimate_off, sterm. reflexivity.
  Qed.
End Tail.

(** ** C179 *)
Theorem C179_standard_exponential : forall (X : Type) (e : senv X) W Rm eps, senv_ok e -> 0 < eps -> 0 < W -> 0 < Rm ->
  (forall x s k, (k < se_L e)%nat -> propensity Standard k (se_nu e x) s <= W * propensity Standard k (se_mu e x) s) ->
  (forall x s r p k, In (r, p) (se_rd e x s) -> p <> 0 -> (k < se_L e)%nat -> Rabs (nth k r 0) <= Rm) ->
  prob (slate_logs e) (fun o => let l := slate_log e Standard o in
    estimate_off (sips_value (s_ids l) (s_rew l) (s_pos l) (s_p l) (s_pe l)) (slate_policy_value e) eps)
  <= 2 * exp (- (INR (se_n e) * eps ^ 2 / (2 * (INR (se_L e) * W * Rm) ^ 2))).
Proof.
  intros X e W Rm eps He Heps HW0 HRm HW HR. apply (ips_tail e He Rm W HRm HW0 HR Standard eps); auto.
  intros x s t k Hk Ha. simpl in Ha. destruct (list_eq_dec _ s t); [congruence|discriminate].
Qed.
Theorem C179_independent_exponential : forall (X : Type) (e : senv X) W Rm eps, senv_ok e -> 0 < eps -> 0 < W -> 0 < Rm ->
  (forall x s k, (k < se_L e)%nat -> propensity Independent k (se_nu e x) s <= W * propensity Independent k (se_mu e x) s) ->
  (forall x s r p k, In (r, p) (se_rd e x s) -> p <> 0 -> (k < se_L e)%nat -> Rabs (nth k r 0) <= Rm) ->
  reward_structure e Independent ->
  prob (slate_logs e) (fun o => let l := slate_log e Independent o in
    estimate_off (iips_value (s_ids l) (s_rew l) (s_pos l) (s_p l) (s_pe l)) (slate_policy_value e) eps)
  <= 2 * exp (- (INR (se_n e) * eps ^ 2 / (2 * (INR (se_L e) * W * Rm) ^ 2))).
Proof. intros X e W Rm eps He Heps HW0 HRm HW HR Hs. apply (ips_tail e He Rm W HRm HW0 HR Independent eps); auto. Qed.
Theorem C179_cascade_exponential : forall (X : Type) (e : senv X) W Rm eps, senv_ok e -> 0 < eps -> 0 < W -> 0 < Rm ->
  (forall x s k, (k < se_L e)%nat -> propensity Cascade k (se_nu e x) s <= W * propensity Cascade k (se_mu e x) s) ->
  (forall x s r p k, In (r, p) (se_rd e x s) -> p <> 0 -> (k < se_L e)%nat -> Rabs (nth k r 0) <= Rm) ->
  reward_structure e Cascade ->
  prob (slate_logs e) (fun o => let l := slate_log e Cascade o in
    estimate_off (rips_value (s_ids l) (s_rew l) (s_pos l) (s_p l) (s_pe l)) (slate_policy_value e) eps)
  <= 2 * exp (- (INR (se_n e) * eps ^ 2 / (2 * (INR (se_L e) * W * Rm) ^ 2))).
Proof. intros X e W Rm eps He Heps HW0 HRm HW HR Hs. apply (ips_tail e He Rm W HRm HW0 HR Cascade eps); auto. Qed.

(** Rounds that suffice for accuracy [eps] with failure probability [delta]; whole-slate, position and cascade weights at most [W]. *)
Theorem C179_sample_size : forall (X : Type) (e : senv X) W Rm eps delta, senv_ok e -> 0 < eps -> 0 < W -> 0 < Rm -> 0 < delta ->
  (forall x s r p k, In (r, p) (se_rd e x s) -> p <> 0 -> (k < se_L e)%nat -> Rabs (nth k r 0) <= Rm) ->
  2 * (INR (se_L e) * W * Rm / eps) ^ 2 * ln (2 / delta) <= INR (se_n e) ->
  let bounded kd := forall x s k, (k < se_L e)%nat -> propensity kd k (se_nu e x) s <= W * propensity kd k (se_mu e x) s in
  let off kd (est : list Z -> list num -> list Z -> list num -> list num -> res num) :=
    prob (slate_logs e) (fun o => let l := slate_log e kd o in estimate_off (est (s_ids l) (s_rew l) (s_pos l) (s_p l) (s_pe l)) (slate_policy_value e) eps) in
  (bounded Standard -> off Standard sips_value <= delta) /\
  (bounded Independent -> reward_structure e Independent -> off Independent iips_value <= delta) /\
  (bounded Cascade -> reward_structure e Cascade -> off Cascade rips_value <= delta).
Proof.
  intros X e W Rm eps delta He Heps HW0 HRm Hdel HR Hn bounded off.
  assert (HL : 0 < INR (se_L e)) by (apply lt_0_INR, He).
  assert (HM : 0 < INR (se_L e) * W * Rm) by (repeat apply Rmult_lt_0_compat; auto). set (M := INR (se_L e) * W * Rm) in *.
  assert (B : 2 * exp (- (INR (se_n e) * eps ^ 2 / (2 * M ^ 2))) <= delta).
  { apply exp_size; auto; [lra|]. assert (HkM : 0 < 2 * (M / eps) ^ 2) by (apply Rmult_lt_0_compat; [lra|]; apply pow_lt; apply Rmult_lt_0_compat; auto; apply Rinv_0_lt_compat; auto).
    apply (Rmult_le_reg_l (2 * (M / eps) ^ 2)); auto. eapply Rle_trans; [apply Hn|]. right. field. split; lra. }
  split; [|split]; intros; (eapply Rle_trans; [|apply B]).
  - apply (C179_standard_exponential X e W Rm eps); auto.
  - apply (C179_independent_exponential X e W Rm eps); auto.
  - apply (C179_cascade_exponential X e W Rm eps); auto.
Qed.

(** 512 slates of two positions, weights at most 4/3: off by 1/2 or more with probability at most 2 exp(-9). *)
Example C179_example :
  prob (slate_logs (rev_envs 512)) (fun o => let l := slate_log (rev_envs 512) Standard o in
    estimate_off (sips_value (s_ids l) (s_rew l) (s_pos l) (s_p l) (s_pe l)) (slate_policy_value (rev_envs 512)) (1 / 2)) <= 2 * exp (- 9) /\
  prob (slate_logs (rev_envs 512)) (fun o => let l := slate_log (rev_envs 512) Cascade o in
    estimate_off (rips_value (s_ids l) (s_rew l) (s_pos l) (s_p l) (s_pe l)) (slate_policy_value (rev_envs 512)) (1 / 2)) <= 2 * exp (- 9) /\
  prob (slate_logs (rev_envs 512)) (fun o => let l := slate_log (rev_envs 512) Independent o in
    estimate_off (iips_value (s_ids l) (s_rew l) (s_pos l) (s_p l) (s_pe l)) (slate_policy_value (rev_envs 512)) (1 / 2)) <= 2 * exp (- 9).
Proof.
  assert (E : 2 * exp (- (INR (se_n (rev_envs 512)) * (1 / 2) ^ 2 / (2 * (INR (se_L (rev_envs 512)) * (4 / 3) * 1) ^ 2))) <= 2 * exp (- 9)).
  { right. change (se_n (rev_envs 512)) with 512%nat. change (se_L (rev_envs 512)) with 2%nat. rewrite !(INR_IZR_INZ _). simpl Z.of_nat. f_equal. f_equal. lra. }
  assert (Ho : senv_ok (rev_envs 512)) by (apply rev_envs_ok; lia).
  split; [|split]; (eapply Rle_trans; [|apply E]).
  - apply (C179_standard_exponential unit (rev_envs 512) (4/3) 1 (1/2) Ho ltac:(lra) ltac:(lra) ltac:(lra) (rev_ratio Standard) rev_bound).
  - apply (C179_cascade_exponential unit (rev_envs 512) (4/3) 1 (1/2) Ho ltac:(lra) ltac:(lra) ltac:(lra) (rev_ratio Cascade) rev_bound rev_structure).
  - apply (C179_independent_exponential unit (rev_envs 512) (4/3) 1 (1/2) Ho ltac:(lra) ltac:(lra) ltac:(lra) (rev_ratio Independent) rev_bound rev_independent).
Qed.

Print Assumptions C179_standard_exponential.
Print Assumptions C179_independent_exponential.
Print Assumptions C179_cascade_exponential.
Print Assumptions C179_sample_size.
