(** * P_Tuning: hyper-parameter tuning and the concentration bounds (properties C27-C32, C83, C84). *)

From Coq Require Import Sorted Permutation Reals List ZArith Lra Lia Bool.
From Verif Require Import Num NpList M_Utils M_Estimators M_Tuning S_Base S_Prob S_Estimators S_Env S_Tuning
  L_Num L_Base L_Estimators L_EstProps L_Tuning S_Examples L_Examples.
Import ListNotations.
Open Scope R_scope.

(** ** C27 *)
(** [base_mse t lam ...] is [_estimate_mse_score] of the estimator class tuned by [t]. *)
Theorem C27_mse_score : forall t lam l bound delta wmax,
  accepted l -> is_policy l -> regular (kind_modifier t) lam ->
  (bound = true -> 0 < delta <= 1) -> is_max (lg_n l) (weight l) wmax ->
  let score b := base_mse t (lam_num lam) (rewards l) (actions l) (pscores l) (policy l)
                   (Some (model l)) (positions l) b delta in
  score bound = Ok (Fin (spec_score (uses_model t) (kind_modifier t) bound delta wmax l lam)) /\
  sampling_variance (uses_model t) (kind_modifier t) lam l
    <= spec_score (uses_model t) (kind_modifier t) bound delta wmax l lam /\
  spec_score (uses_model t) (kind_modifier t) false delta wmax l lam
    <= spec_score (uses_model t) (kind_modifier t) bound delta wmax l lam /\
  ((forall i, (i < lg_n l)%nat -> modified (kind_modifier t) lam (weight l i) = weight l i) ->
   score false = Ok (Fin (sampling_variance (uses_model t) (kind_modifier t) lam l))).
Proof.
  intros t lam l bound delta wmax Hacc Hp Hr Hd Hm score.
  assert (Hb0 : 0 <= spec_bias (uses_model t) (kind_modifier t) lam l) by apply Rabs_pos.
  assert (Hdev : bound = true -> 0 <= spec_deviation l wmax delta).
  { intros Hb. apply deviation_nonneg; auto. }
  assert (E : forall b, (b = true -> 0 < delta <= 1) -> score b = Ok (Fin (spec_score (uses_model t) (kind_modifier t) b delta wmax l lam))).
  { intros b Hbd. unfold score. rewrite <- base_mse_arg. apply score_ok; auto. }
  split; [|split; [|split]].
  - apply E; auto.
  - unfold spec_score. pose proof (Rle_0_sqr (spec_bias (uses_model t) (kind_modifier t) lam l +
        (if bound then spec_deviation l wmax delta else 0))) as Hsq. unfold Rsqr in Hsq. lra.
  - unfold spec_score. rewrite Rplus_0_r. destruct bound; [|rewrite Rplus_0_r; lra].
    specialize (Hdev eq_refl). nra.
  - intros Hid. rewrite E by easy. unfold spec_score, spec_bias. rewrite (avg_ext _ _ (fun _ => 0)).
    + unfold avg. rewrite sumn_0. unfold Rdiv. rewrite Rmult_0_l, Rabs_R0. do 2 f_equal. ring.
    + intros i Hi. rewrite Hid by auto. ring.
Qed.

Theorem C27_delta_zero : forall t lam l, accepted l -> is_policy l -> regular (kind_modifier t) lam ->
  base_mse t (lam_num lam) (rewards l) (actions l) (pscores l) (policy l) (Some (model l)) (positions l) true 0
  = Err ZeroDivisionError.
Proof.
  intros t lam l Hacc Hp Hr. rewrite base_mse_unfold by auto. unfold mse_from. cbn [bind].
  unfold estimate_high_probability_upper_bound_bias. rewrite check_scalar_delta by lra. cbn [bind].
  assert (E : exists b, estimate_bias_in_ope (rewards l) (tabF (lg_n l) (weight l))
      (tabF (lg_n l) (fun i => modified (kind_modifier t) lam (weight l i)))
      (if uses_model t then Some (tabF (lg_n l) (q_at l)) else None) = Ok b).
  { unfold rewards. destruct (uses_model t); [rewrite bias_q_ok by (apply Hacc)|rewrite bias_ok by (apply Hacc)]; eauto. }
  destruct E as (b & ->). cbn [bind]. rewrite Reqb_refl. reflexivity.
Qed.

Example C27_example : accepted ex_log /\ is_policy ex_log /\ regular (kind_modifier T_DRos) (Some 3) /\
  is_max (lg_n ex_log) (weight ex_log) 3.
Proof.
  split; [apply ex_log_accepted|]. split; [apply ex_log_policy|]. split; [simpl; lra|]. split.
  - exists 1%nat. split; [simpl; lia|]. unfold weight; simpl. lra.
  - simpl. intros i Hi. unfold weight. idx i; simpl; try lia; lra.
Qed.

(** ** C28 *)
Theorem C28_hoeffding : forall n x x_max delta,
  (0 < n)%nat -> (forall i, (i < n)%nat -> x i <= x_max) -> 0 < delta <= 1 ->
  exists v,
    estimate_hoeffding_lower_bound (tabF n x) (Some x_max) delta = Ok (Fin v) /\
    v = avg n x - x_max * sqrt (ln (1 / delta) / (2 * INR n)) /\
    (0 <= x_max -> v <= avg n x) /\
    (forall delta' v', 0 <= x_max -> delta <= delta' <= 1 ->
       estimate_hoeffding_lower_bound (tabF n x) (Some x_max) delta' = Ok (Fin v') -> v <= v') /\
    ((exists i, (i < n)%nat /\ x i = x_max) ->
       estimate_hoeffding_lower_bound (tabF n x) None delta = Ok (Fin v)).
Proof.
  intros n x xm d Hn Hx Hd. exists (hoeff n x xm d). split; [apply hoeffding_ok; auto|].
  split; [reflexivity|]. split; [apply hoeff_below|]. split.
  - intros d' v' Hxm Hd'. rewrite hoeffding_ok by (auto; lra). intros E. inversion E. apply hoeff_mono; auto; lra.
  - intros Hm. apply hoeffding_none; auto. split; auto.
Qed.

Theorem C28_bernstein : forall n x x_max delta,
  (1 < n)%nat -> (forall i, (i < n)%nat -> x i <= x_max) -> 0 < delta <= 1 ->
  exists v,
    estimate_bernstein_lower_bound (tabF n x) (Some x_max) delta = Ok (Fin v) /\
    v = avg n x - 7 * x_max * ln (2 / delta) / (3 * (INR n - 1))
        - sqrt (2 * ln (2 / delta) * variance n x / (INR n - 1)) /\
    (0 <= x_max -> v <= avg n x) /\
    (forall delta' v', 0 <= x_max -> delta <= delta' <= 1 ->
       estimate_bernstein_lower_bound (tabF n x) (Some x_max) delta' = Ok (Fin v') -> v <= v') /\
    ((exists i, (i < n)%nat /\ x i = x_max) ->
       estimate_bernstein_lower_bound (tabF n x) None delta = Ok (Fin v)).
Proof.
  intros n x xm d Hn Hx Hd. exists (bern n x xm d). split; [apply bernstein_ok; auto|].
  split; [reflexivity|]. split; [intros; apply bern_below; auto|]. split.
  - intros d' v' Hxm Hd'. rewrite bernstein_ok by (auto; lra). intros E. inversion E. apply bern_mono; auto; lra.
  - intros Hm. apply bernstein_none; auto. split; auto.
Qed.

Theorem C28_rejects : forall n x x_max delta i, (i < n)%nat -> x_max < x i ->
  estimate_hoeffding_lower_bound (tabF n x) (Some x_max) delta = Err ValueError /\
  estimate_bernstein_lower_bound (tabF n x) (Some x_max) delta = Err ValueError.
Proof.
  intros n x xm d i Hi Hx. destruct (nmaxl_tabF n x ltac:(lia)) as (m & Em & _ & Hm). specialize (Hm i Hi).
  unfold estimate_hoeffding_lower_bound, estimate_bernstein_lower_bound. rewrite Em. cbn [bind].
  unfold check_scalar. simpl. rewrite (proj2 (Rltb_true xm m)) by lra. split; reflexivity.
Qed.

Theorem C28_bad_delta : forall n x x_max delta, (0 < n)%nat -> (forall i, (i < n)%nat -> x i <= x_max) ->
  (delta < 0 \/ 1 < delta -> 
     estimate_hoeffding_lower_bound (tabF n x) (Some x_max) delta = Err ValueError /\
     estimate_bernstein_lower_bound (tabF n x) (Some x_max) delta = Err ValueError) /\
  (delta = 0 ->
     estimate_hoeffding_lower_bound (tabF n x) (Some x_max) delta = Err ZeroDivisionError /\
     estimate_bernstein_lower_bound (tabF n x) (Some x_max) delta = Err ZeroDivisionError).
Proof.
  intros n x xm d Hn Hx. destruct (nmaxl_tabF n x Hn) as (m & Em & (k & Hk & Ek) & _).
  unfold estimate_hoeffding_lower_bound, estimate_bernstein_lower_bound. rewrite Em. cbn [bind].
  rewrite check_scalar_min by (rewrite <- Ek; auto). cbn [bind]. split.
  - intros Hd. unfold check_scalar. simpl. destruct (Rltb d 0) eqn:E; [split; reflexivity|].
    apply Rltb_false in E. rewrite (proj2 (Rltb_true 1 d)) by lra. split; reflexivity.
  - intros ->. rewrite check_scalar_delta by lra. cbn [bind]. rewrite Reqb_refl. split; reflexivity.
Qed.

(** An empty sample has no maximum: both bounds raise, whatever the other arguments. *)
Theorem C28_empty_sample : forall x_max delta,
  estimate_hoeffding_lower_bound [] x_max delta = Err ValueError /\ estimate_bernstein_lower_bound [] x_max delta = Err ValueError.
Proof. intros [m|] delta; split; reflexivity. Qed.

(** With a single observation the Bernstein bound is NaN. *)
Theorem C28_bernstein_one_observation : forall x x_max delta, x <= x_max -> 0 < delta <= 1 ->
  estimate_bernstein_lower_bound [Fin x] (Some x_max) delta = Ok NaN.
Proof.
  intros x xm d Hx Hd. unfold estimate_bernstein_lower_bound. simpl nmaxl. cbn [bind].
  rewrite check_scalar_min by auto. cbn [bind]. rewrite check_scalar_delta by lra. cbn [bind].
  rewrite (proj2 (Reqb_false d 0)) by lra. cbn [raise_if bind]. f_equal.
  replace (nvar [Fin x]) with (Fin 0).
  2:{ change [Fin x] with (tabF 1 (fun _ => x)). rewrite nvar_tabF by lia. unfold variance, avg. simpl. f_equal. field. }
  simpl length. replace (Fin (INR 1 - 1)) with (Fin 0) by (simpl; f_equal; ring).
  pose proof (log_delta_pos d Hd) as Hl.
  rewrite nlog_Fin by (apply Rdiv_lt_0_compat; lra).
  replace (nmul (nmul (Fin 2) (Fin (ln (2 / d)))) (Fin 0)) with (Fin 0) by (simpl; f_equal; ring).
  rewrite ndiv_0_0. apply nsub_NaN_r.
Qed.

(** Without [x_max], on negative observations, the "lower bound" exceeds the sample mean. *)
Theorem C28_negative_observations_refuted : forall n x delta, (0 < n)%nat ->
  (forall i, (i < n)%nat -> x i < 0) -> 0 < delta < 1 ->
  exists v, estimate_hoeffding_lower_bound (tabF n x) None delta = Ok (Fin v) /\ avg n x < v.
Proof.
  intros n x d Hn Hx Hd. destruct (nmaxl_tabF n x Hn) as (m & _ & Hm).
  exists (hoeff n x m d). split; [apply hoeffding_none; auto; lra|].
  destruct Hm as ((k & Hk & Ek) & _). specialize (Hx k Hk). unfold hoeff.
  assert (0 < sqrt (ln (1 / d) / (2 * INR n))).
  { apply sqrt_lt_R0. apply Rdiv_lt_0_compat; [|apply lt_0_INR in Hn; lra].
    rewrite <- ln_1. apply ln_increasing; [lra|]. apply (Rmult_lt_reg_r d); [lra|].
    unfold Rdiv. rewrite Rmult_assoc, Rinv_l; lra. }
  nra.
Qed.

Example C28_example :
  (forall i, (i < 3)%nat -> nth i [1; 2; 0] 0 <= 2) /\ (exists i, (i < 3)%nat /\ nth i [1; 2; 0] 0 = 2) /\
  (forall i, (i < 2)%nat -> nth i [-1; -2] 0 < 0).
Proof.
  split; [intros i Hi; idx i; simpl; try lia; lra|]. split; [exists 1%nat; simpl; split; [lia|lra]|].
  intros i Hi. destruct i as [|[|i]]; simpl; try lia; lra.
Qed.

(** ** C29 *)
(** One call on a fresh tuning object, for both selection methods. *)
Theorem C29_candidate_value : forall argsort ppf t lams m bound delta use_est o l ps arg eps,
  make_tuner t (map lam_num lams) m bound delta use_est = Ok o ->
  (forall lam, In lam lams -> regular (kind_modifier t) lam) -> supports t use_est ->
  accepted l -> is_policy l -> position_arg l arg -> pscore_arg l use_est ps eps ->
  tunable argsort ppf m bound delta l ->
  exists lam o', In lam lams /\
    tuner_value argsort ppf o (tuning_call l ps arg eps) = (o', base_value t (lam_num lam) use_est (tuning_call l ps arg eps)) /\
    tn_best o' = Some (lam_num lam) /\
    base_value t (lam_num lam) use_est (tuning_call l ps arg eps)
      = Ok (Fin (avg (lg_n l) (contribution (uses_model t) (kind_modifier t) lam l))).
Proof.
  intros argsort ppf t lams m bound delta ue o l ps arg eps Ho Hr Hs Hacc Hp Ha Hps Ht.
  destruct (tune_candidate argsort ppf t lams m bound delta ue o l Ho Hr Hacc Hp Ht) as (lam & Hl & E).
  pose proof (make_tuner_inv _ _ _ _ _ _ _ Ho) as (Eo & _ & _).
  assert (Ev : base_value t (lam_num lam) ue (tuning_call l ps arg eps) = Ok (Fin (spec_value (uses_model t) (kind_modifier t) lam l))).
  { rewrite <- (base_value_ok t lam ue l ps arg eps) by auto. destruct t; reflexivity. }
  exists lam, (set_best o (lam_num lam)). split; auto. split; [|split; [reflexivity|exact Ev]].
  rewrite Ev. rewrite Eo in *. rewrite (fresh_value _ _ _ _ _ _ _ lam); auto.
Qed.

Lemma ex_t1_accepted : accepted ex_t1.
Proof. constructor; simpl; intros; try lia; try lra; rabs. Qed.
Lemma ex_t2_accepted : accepted ex_t2.
Proof. constructor; simpl; intros; try lia; try lra; rabs. Qed.
Lemma ex_t1_policy : is_policy ex_t1.
Proof. split; simpl; intros; try lra. Qed.
Lemma ex_t2_policy : is_policy ex_t2.
Proof. split; simpl; intros; try lra. Qed.

Lemma ex_tuner : exists o, make_tuner T_IPW (map lam_num [Some 1; Some 10]) Mse false (1/20) false = Ok o.
Proof.
  unfold make_tuner, check_lambdas, check_scalar. simpl. 
  repeat (rewrite (proj2 (Rltb_false _ _)) by lra; simpl). rewrite !Reqb_refl. simpl.
  repeat (rewrite (proj2 (Rltb_false _ _)) by lra; simpl). eauto.
Qed.

Example C29_example : exists o,
  make_tuner T_IPW (map lam_num [Some 1; Some 10]) Mse false (1/20) false = Ok o /\
  (forall lam, In lam [Some 1; Some 10] -> regular (kind_modifier T_IPW) lam) /\ supports T_IPW false /\
  accepted ex_t1 /\ is_policy ex_t1 /\ position_arg ex_t1 None /\ pscore_arg ex_t1 false (Some (pscores ex_t1)) None /\
  tunable (fun _ => []) (fun _ _ => NaN) Mse false (1/20) ex_t1.
Proof.
  destruct ex_tuner as (o & E). exists o. split; auto. split; [simpl; auto|]. split; [simpl; auto|].
  split; [apply ex_t1_accepted|]. split; [apply ex_t1_policy|]. split; [right; simpl; auto|].
  split; [reflexivity|]. simpl. discriminate.
Qed.

(** ** C30 *)
Theorem C30_mse_argmin : forall argsort ppf t lams bound delta use_est o l ps arg eps wmax,
  make_tuner t (map lam_num lams) Mse bound delta use_est = Ok o ->
  (forall lam, In lam lams -> regular (kind_modifier t) lam) -> supports t use_est ->
  accepted l -> is_policy l -> position_arg l arg -> pscore_arg l use_est ps eps ->
  (bound = true -> 0 < delta) -> is_max (lg_n l) (weight l) wmax ->
  let score := spec_score (uses_model t) (kind_modifier t) bound delta wmax l in
  exists lam o', In lam lams /\
    tuner_value argsort ppf o (tuning_call l ps arg eps)
      = (o', Ok (Fin (avg (lg_n l) (contribution (uses_model t) (kind_modifier t) lam l)))) /\
    tn_best o' = Some (lam_num lam) /\
    (forall lam', In lam' lams -> score lam <= score lam') /\
    (forall lam', In lam' lams -> score lam' = score lam -> preferred (kind_modifier t) lam lam').
Proof.
  intros argsort ppf t lams bound delta ue o l ps arg eps w Ho Hr Hs Hacc Hp Ha Hps Hb Hw score.
  apply make_tuner_inv in Ho as (-> & Hne & Hd).
  destruct (tune_mse_ok (mkTuner t (nsort (order t) (map lam_num lams)) Mse bound delta ue None) l lams score)
    as (lam & Hl & E & H1 & H2); auto.
  - intros ->; easy.
  - intros lam Hl. cbn [tn_kind tn_bound tn_delta]. apply score_ok; auto. intros Hbt. specialize (Hb Hbt). lra.
  - eexists lam, _. split; auto. split; [|split; [|split; auto]].
    + rewrite (fresh_value _ _ _ _ _ _ _ lam); auto.
    + reflexivity.
Qed.

(** Two candidates with different scores, and two that tie. *)
Example C30_example :
  spec_score false Clipping false (1/20) 10 ex_t2 (Some 1) < spec_score false Clipping false (1/20) 10 ex_t2 (Some 10) /\
  spec_score false Clipping false (1/20) 1 ex_t1 (Some 1) = spec_score false Clipping false (1/20) 1 ex_t1 (Some 10).
Proof.
  assert (W2 : forall i, weight ex_t2 i = 10) by (intros; unfold weight; simpl; lra).
  assert (W1 : forall i, weight ex_t1 i = 1) by (intros; unfold weight; simpl; lra).
  unfold spec_score, spec_bias, sampling_variance, variance, contribution, residual, avg. split.
  - simpl. rewrite !W2. unfold modified, clip, Rmin.
    destruct (Rle_dec 10 1); [lra|]. destruct (Rle_dec 10 10); [|lra].
    match goal with |- context [Rabs ?x] => replace x with 0 by field end.
    match goal with |- context [Rabs ?x] => lazymatch x with 0 => fail | _ => replace x with 0 by field end end.
    rewrite Rabs_R0. lra.
  - simpl. rewrite !W1. unfold modified, clip, Rmin.
    destruct (Rle_dec 1 1); [|lra]. destruct (Rle_dec 1 10); [|lra]. reflexivity.
Qed.

(** ** C31 *)
Theorem C31_slope : forall argsort ppf t lams bound delta use_est o l ps arg eps T,
  make_tuner t (map lam_num lams) Slope bound delta use_est = Ok o ->
  (forall lam, In lam lams -> regular (kind_modifier t) lam) -> supports t use_est ->
  accepted l -> is_policy l -> position_arg l arg -> pscore_arg l use_est ps eps ->
  (1 < lg_n l)%nat -> ppf (lg_n l - 1)%nat (1 - delta) = Fin T ->
  (forall xs, is_argsort xs (argsort xs)) ->
  let theta lam := avg (lg_n l) (contribution (uses_model t) (kind_modifier t) lam l) in
  let width := spec_width (uses_model t) (kind_modifier t) T l in
  exists visit lam o',
    Permutation visit lams /\ StronglySorted (fun a b => width b <= width a) visit /\
    slope_choice theta width visit lam /\
    tuner_value argsort ppf o (tuning_call l ps arg eps) = (o', Ok (Fin (theta lam))) /\
    tn_best o' = Some (lam_num lam).
Proof.
  intros argsort ppf t lams bound delta ue o l ps arg eps T Ho Hr Hs Hacc Hp Ha Hps Hn HT Hsort theta width.
  apply make_tuner_inv in Ho as (-> & Hne & Hd).
  destruct (sorted_candidates t lams) as (lams' & E & HP).
  destruct (tune_slope_ok argsort ppf (mkTuner t (nsort (order t) (map lam_num lams)) Slope bound delta ue None)
      l lams' T theta width) as (visit & lam & Hv & HS & E' & Hc); auto.
  - intros ->. apply Permutation_nil in HP. subst. easy.
  - intros lam Hl. cbn [tn_kind]. rewrite base_round_arg, base_round_ok; eauto.
    apply Hr. apply (Permutation_in _ HP); auto.
  - exists visit, lam. eexists. split; [rewrite Hv; auto|]. split; auto. split; auto.
    assert (Hl : In lam lams).
    { apply (Permutation_in _ HP). apply (Permutation_in _ Hv).
      destruct Hc as (pre & post & -> & _). apply in_app_iff. right; left; auto. }
    split.
    + rewrite (fresh_value _ _ _ _ _ _ _ lam); auto.
    + reflexivity.
Qed.

(** The hypothesis on np.argsort can be met, and SLOPE can stop before the last candidate. *)
Example C31_example : (exists argsort, forall xs, is_argsort xs (argsort xs)) /\
  is_argsort [Fin 2; Fin 1; NaN] [1; 0; 2]%nat /\ (1 < lg_n ex_t2)%nat /\
  slope_choice (fun x : R => x) (fun _ => 1) [0; 1; 9] 1.
Proof.
  split; [exists isort; apply isort_ok|]. split; [|split; [simpl; lia|]].
  - split; [|split; [reflexivity|split]].
    + repeat constructor; simpl; intuition discriminate.
    + simpl. intuition lia.
    + intros j k Hjk. simpl in Hjk.
      destruct j as [|[|[|j]]], k as [|[|[|k]]]; try lia; simpl; unfold before_ok; simpl; auto.
      right. apply Rleb_true. lra.
  - assert (H6 : 2 < sqrt 6 < 3).
    { split.
      - replace 2 with (sqrt (2 * 2)) by (apply sqrt_square; lra). apply sqrt_lt_1; lra.
      - replace 3 with (sqrt (3 * 3)) by (apply sqrt_square; lra). apply sqrt_lt_1; lra. }
    exists [0], [9]. split; [reflexivity|]. split.
    + constructor; [|repeat constructor]. constructor; [|constructor].
      unfold slope_ok. rewrite Rabs_left; lra.
    + exists 1. split; [right; left; auto|]. unfold slope_ok. rewrite Rabs_left; lra.
Qed.

(** ** C32 *)
Theorem C32_first_log_remembered : forall argsort ppf t lams m bound delta use_est o c calls,
  make_tuner t (map lam_num lams) m bound delta use_est = Ok o ->
  (forall lam, In lam lams -> regular (kind_modifier t) lam) -> supports t use_est ->
  good_call use_est c -> Forall (good_call use_est) calls ->
  tunable argsort ppf m bound delta (c_log c) ->
  exists lam, In lam lams /\
    tn_best (fst (tuner_value argsort ppf o (call_input c))) = Some (lam_num lam) /\
    tuner_run argsort ppf o (map call_input (c :: calls))
    = map (fun c' => base_value t (lam_num lam) use_est (call_input c')) (c :: calls).
Proof.
  intros argsort ppf t lams m bound delta ue o c calls Ho Hr Hs Hc HF Ht.
  destruct Hc as (Hacc & Hp & Ha & Hps).
  destruct (tune_candidate argsort ppf t lams m bound delta ue o (c_log c) Ho Hr Hacc Hp Ht) as (lam & Hl & E).
  pose proof (make_tuner_inv _ _ _ _ _ _ _ Ho) as (Eo & _ & _).
  assert (Ev : forall c', good_call ue c' -> base_value t (lam_num lam) ue (call_input c')
            = Ok (Fin (spec_value (uses_model t) (kind_modifier t) lam (c_log c')))).
  { intros c' (G1 & G2 & G3 & G4). rewrite <- (base_value_ok t lam ue (c_log c') (c_ps c') (c_arg c') (c_eps c')) by auto.
    unfold call_input, tuning_call. destruct t; reflexivity. }
  assert (Hg : good_call ue c) by (unfold good_call; auto).
  assert (Efirst : tuner_value argsort ppf o (call_input c)
     = (set_best o (lam_num lam), Ok (Fin (spec_value (uses_model t) (kind_modifier t) lam (c_log c))))).
  { unfold call_input. rewrite Eo in *. rewrite (fresh_value _ _ _ _ _ _ _ lam); auto. }
  exists lam. split; auto. split.
  - rewrite Efirst. reflexivity.
  - cbn [map tuner_run]. rewrite Efirst. rewrite Ev by auto. f_equal.
    rewrite (run_remembered _ _ _ _ lam); try (rewrite Eo; simpl; auto).
    + apply map_ext_in. intros c' Hc'. rewrite Forall_forall in HF. rewrite Ev by auto. reflexivity.
Qed.

(** The remembered value need not be the one the method would select for the later log: on a log
    with unit weights lambda = 10 is selected, and it is kept for a log whose best candidate is 1. *)
Theorem C32_stale_choice : exists lams o c c',
  make_tuner T_IPW (map lam_num lams) Mse false (1/20) false = Ok o /\
  good_call false c /\ good_call false c' /\
  forall argsort ppf,
    snd (tuner_value argsort ppf o (call_input c')) = base_value T_IPW (Fin 1) false (call_input c') /\
    nth 1 (tuner_run argsort ppf o (map call_input [c; c'])) (Err ValueError)
      = base_value T_IPW (Fin 10) false (call_input c') /\
    (exists s1 s10, In (Some 1) lams /\
       base_mse T_IPW (Fin 1) (rewards (c_log c')) (actions (c_log c')) (pscores (c_log c')) (policy (c_log c')) None (positions (c_log c')) false (1/20) = Ok (Fin s1) /\
       base_mse T_IPW (Fin 10) (rewards (c_log c')) (actions (c_log c')) (pscores (c_log c')) (policy (c_log c')) None (positions (c_log c')) false (1/20) = Ok (Fin s10) /\
       s1 < s10).
Proof.
  destruct ex_tuner as (o & Ho).
  exists [Some 1; Some 10], o, (mkCall ex_t1 (Some (pscores ex_t1)) None None), (mkCall ex_t2 (Some (pscores ex_t2)) None None).
  assert (G1 : good_call false (mkCall ex_t1 (Some (pscores ex_t1)) None None)).
  { unfold good_call; simpl. split; [apply ex_t1_accepted|]. split; [apply ex_t1_policy|]. split; [right; simpl; auto|reflexivity]. }
  assert (G2 : good_call false (mkCall ex_t2 (Some (pscores ex_t2)) None None)).
  { unfold good_call; simpl. split; [apply ex_t2_accepted|]. split; [apply ex_t2_policy|]. split; [right; simpl; auto|reflexivity]. }
  split; auto. split; auto. split; auto. intros argsort ppf.
  assert (M1 : is_max (lg_n ex_t1) (weight ex_t1) 1).
  { split; [exists 0%nat; unfold weight; simpl; split; [lia|lra]|]. intros; unfold weight; simpl; lra. }
  assert (M2 : is_max (lg_n ex_t2) (weight ex_t2) 10).
  { split; [exists 0%nat; unfold weight; simpl; split; [lia|lra]|]. intros; unfold weight; simpl; lra. }
  assert (Hreg : forall lam, In lam [Some 1; Some 10] -> regular (kind_modifier T_IPW) lam) by (simpl; auto).
  destruct C30_example as [S2 S1].
  destruct G1 as (A1 & A2 & A3 & A4). destruct G2 as (B1 & B2 & B3 & B4). cbn [c_log c_ps c_arg c_eps] in *.
  split; [|split].
  - destruct (C30_mse_argmin argsort ppf T_IPW [Some 1; Some 10] false (1/20) false o ex_t2 _ _ _ 10 Ho Hreg I B1 B2 B3 B4 ltac:(discriminate) M2)
      as (lam & o' & Hl & E & _ & Hmin & _).
    unfold call_input. cbn [c_log c_ps c_arg c_eps]. rewrite E. cbn [snd].
    assert (lam = Some 1).
    { destruct Hl as [<-|[<-|[]]]; auto. specialize (Hmin (Some 1) (or_introl eq_refl)). simpl in Hmin, S2. lra. }
    subst lam. symmetry. exact (base_value_ok T_IPW (Some 1) false ex_t2 (Some (pscores ex_t2)) None None B1 B2 I B3 B4).
  - destruct (C32_first_log_remembered argsort ppf T_IPW [Some 1; Some 10] Mse false (1/20) false o
      (mkCall ex_t1 (Some (pscores ex_t1)) None None) [mkCall ex_t2 (Some (pscores ex_t2)) None None] Ho Hreg I)
      as (lam & Hl & Eb & Er).
    + unfold good_call; auto.
    + constructor; [unfold good_call; auto|constructor].
    + simpl. discriminate.
    + destruct (C30_mse_argmin argsort ppf T_IPW [Some 1; Some 10] false (1/20) false o ex_t1 _ _ _ 1 Ho Hreg I A1 A2 A3 A4 ltac:(discriminate) M1)
      as (lam' & o' & Hl' & E & Eb' & _ & Hpref).
      unfold call_input in Eb. cbn [c_log c_ps c_arg c_eps] in Eb. rewrite E in Eb. cbn [fst] in Eb. rewrite Eb' in Eb.
      inversion Eb as [Eq]. apply lam_num_inj in Eq. subst lam'.
      assert (lam = Some 10).
      { destruct Hl as [<-|[<-|[]]]; auto. 
        specialize (Hpref (Some 10) (or_intror (or_introl eq_refl)) (eq_sym S1)). simpl in Hpref. lra. }
      subst lam. change [mkCall ex_t1 (Some (pscores ex_t1)) None None; mkCall ex_t2 (Some (pscores ex_t2)) None None]
        with (mkCall ex_t1 (Some (pscores ex_t1)) None None :: [mkCall ex_t2 (Some (pscores ex_t2)) None None]).
      rewrite Er. reflexivity.
  - exists (spec_score false Clipping false (1/20) 10 ex_t2 (Some 1)), (spec_score false Clipping false (1/20) 10 ex_t2 (Some 10)).
    split; [left; auto|]. cbn [c_log].
    split; [|split; auto]; [apply (score_ok T_IPW (Some 1))|apply (score_ok T_IPW (Some 10))]; auto; try exact I; discriminate.
Qed.

(** ** C83: a zero candidate in DRos tuning *)
Theorem C83_dros_zero_candidate : forall argsort ppf lams m bound delta use_est o l ps arg eps,
  make_tuner T_DRos (map lam_num lams) m bound delta use_est = Ok o ->
  In (Some 0) lams -> (forall lam, In lam lams -> lam_ge lam (Some 0)) ->
  accepted l -> is_policy l -> position_arg l arg -> pscore_arg l use_est ps eps ->
  0 < delta -> tunable argsort ppf m bound delta l ->
  (exists i, (i < lg_n l)%nat /\ lg_pi l i (lg_a l i) (lg_pos l i) = 0) ->
  exists o', tuner_value argsort ppf o (tuning_call l ps arg eps) = (o', Ok NaN) /\ tn_best o' = Some (Fin 0).
Proof.
  intros argsort ppf lams m bound delta ue o l ps arg eps Ho Hin Hge Hacc Hp Ha Hps Hd Ht Hz.
  apply make_tuner_inv in Ho as (-> & Hne & Hd').
  set (o := mkTuner T_DRos (nsort (order T_DRos) (map lam_num lams)) m bound delta ue None).
  exists (set_best o (Fin 0)). split; [|reflexivity].
  rewrite tuner_value_ok by (auto; exact I).
  change (model_arg (tn_kind o) l) with (Some (model l)).
  rewrite (dros_zero_tune argsort ppf o l lams); auto.
  - cbn [tn_best o]. f_equal. cbn [base_value tn_kind o ti_q ti_reward ti_action ti_dist ti_ps ti_pos ti_eps forwards_estimated_pscore].
    destruct (dros_zero_round l Hacc Hz) as (rr & E & Hi & _). cbn [base_round] in E.
    unfold dros_value, dr_like_value, dr_like_rounds.
    rewrite (choose_pscore_ok _ l).
    + cbn [bind]. rewrite check_ok by (auto; left; reflexivity). cbn [bind default_position].
      rewrite E. cbn [bind]. rewrite nmean_NaN by auto. reflexivity.
    + unfold pscore_arg in *. cbn [tn_use_est o]. destruct ue; auto.
  - cbn [tn_delta o]. lra.
  - cbn [tn_method tn_delta o]. intros ->. exact Ht.
Qed.

Example C83_example : exists o,
  make_tuner T_DRos (map lam_num [Some 0; Some 1]) Mse false (1/20) false = Ok o /\
  accepted ex_det /\ is_policy ex_det /\
  exists i, (i < lg_n ex_det)%nat /\ lg_pi ex_det i (lg_a ex_det i) (lg_pos ex_det i) = 0.
Proof.
  assert (E : exists o, make_tuner T_DRos (map lam_num [Some 0; Some 1]) Mse false (1/20) false = Ok o).
  { unfold make_tuner, check_lambdas, check_scalar. simpl. 
    repeat (rewrite (proj2 (Rltb_false _ _)) by lra; simpl). rewrite !Reqb_refl. simpl.
    repeat (rewrite (proj2 (Rltb_false _ _)) by lra; simpl). eauto. }
  destruct E as (o & E). exists o. split; auto. split; [apply ex_det_accepted|]. split; [apply ex_det_policy|].
  exists 1%nat. simpl. split; [lia|reflexivity].
Qed.

(** ** C84: sub-Gaussian tuning does not accept estimated propensities *)
Theorem C84_sg_tuning_estimated_pscore : forall argsort ppf t lams m bound delta o i,
  t = T_SGIPW \/ t = T_SGDR ->
  make_tuner t lams m bound delta true = Ok o ->
  (ti_eps i <> None ->
   exists e, snd (tuner_value argsort ppf o i) = Err e) /\
  (forall l ps arg eps, accepted l -> position_arg l arg -> pscore_arg l true ps eps ->
     snd (tuner_value argsort ppf o (tuning_call l ps arg eps)) = Err ValueError).
Proof.
  intros argsort ppf t lams m bound delta o i Ht Ho. apply make_tuner_inv in Ho as (-> & _ & _). split.
  - intros _. unfold tuner_value. destruct (public_check _ i) as [[ps q]|e]; [|simpl; eauto].
    unfold ensure_tuned, inner_input. cbn [tn_use_est tn_kind ti_ps ti_eps].
    destruct Ht as [-> | ->]; cbn; eauto.
  - intros l ps arg eps Hacc Ha Hps. unfold tuner_value. rewrite public_check_ok by auto.
    unfold ensure_tuned, inner_input. cbn [tn_use_est tn_kind ti_ps ti_eps].
    destruct Ht as [-> | ->]; reflexivity.
Qed.

Example C84_example : exists o, make_tuner T_SGIPW [Fin (1/2)] Mse false (1/20) true = Ok o /\
  accepted ex_t1 /\ position_arg ex_t1 None /\ pscore_arg ex_t1 true None (Some (pscores ex_t1)).
Proof.
  assert (E : exists o, make_tuner T_SGIPW [Fin (1/2)] Mse false (1/20) true = Ok o).
  { unfold make_tuner, check_lambdas, check_scalar. simpl. 
    repeat (rewrite (proj2 (Rltb_false _ _)) by lra; simpl). rewrite !Reqb_refl. simpl.
    repeat (rewrite (proj2 (Rltb_false _ _)) by lra; simpl). eauto. }
  destruct E as (o & E). exists o. split; auto. split; [apply ex_t1_accepted|]. split; [right; simpl; auto|reflexivity].
Qed.

Print Assumptions C27_mse_score.
Print Assumptions C27_delta_zero.
Print Assumptions C28_hoeffding.
Print Assumptions C28_bernstein.
Print Assumptions C28_rejects.
Print Assumptions C28_bad_delta.
Print Assumptions C28_empty_sample.
Print Assumptions C28_bernstein_one_observation.
Print Assumptions C28_negative_observations_refuted.
Print Assumptions C29_candidate_value.
Print Assumptions C30_mse_argmin.
Print Assumptions C31_slope.
Print Assumptions C32_first_log_remembered.
Print Assumptions C32_stale_choice.
Print Assumptions C83_dros_zero_candidate.
Print Assumptions C84_sg_tuning_estimated_pscore.
