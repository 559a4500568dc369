(** * P_SlateVar: consistency of the slate estimators and what coarser weights buy (C165, C166). *)

From Coq Require Import Reals List ZArith Bool Lia Lra Psatz.
From Verif Require Import Num NpList M_Utils M_Slate S_Base S_Prob S_Slate S_Conc L_Num L_Base L_Prob L_Unbiased
  L_Slate L_SlateEst L_SlateUnb L_Conc L_Conc3 P_Slate.
Import ListNotations.
Open Scope R_scope.

Lemma sum_sq n f : (sumn n f) * (sumn n f) <= INR n * sumn n (fun k => f k * f k).
Proof.
  induction n as [|n IH]; [simpl; lra|]. cbn [sumn]. rewrite S_INR. set (S1 := sumn n f) in *. set (S2 := sumn n (fun k => f k * f k)) in *.
  assert (H2 : 0 <= S2) by (apply sumn_nonneg; intros; apply Rle_0_sqr). pose proof (pos_INR n) as Hn. set (N := INR n) in *.
  destruct (Req_dec N 0) as [E|E].
  - rewrite E in IH. assert (S1 = 0) by nra. rewrite H, E. nra.
  - assert (Hx : 2 * S1 * f n <= S2 + N * (f n * f n)); [|nra].
    assert (HN : 0 < N) by lra. apply (Rmult_le_reg_l N); auto.
    pose proof (Rle_0_sqr (S1 - N * f n)) as Hs. unfold Rsqr in Hs. nra.
Qed.

Section V.
  Context {X : Type} (e : senv X) (He : senv_ok e).

  Definition swt (kd : skind) (x : X) (k : nat) (s : list nat) : R := propensity kd k (se_nu e x) s / propensity kd k (se_mu e x) s.
  Definition sterm (kd : skind) (y : option (X * list nat * list R)) : R :=
    sumn (se_L e) (fun k => match y with
        | Some (x, s, r) => nth k r 0 * (propensity kd k (se_nu e x) s / propensity kd k (se_mu e x) s)
        | None => 0 * (0 / 0) end).

  Definition ratio_bound (kd : skind) (W : R) : Prop :=
    forall x s k, (k < se_L e)%nat -> propensity kd k (se_nu e x) s <= W * propensity kd k (se_mu e x) s.

  Lemma ratio_support kd W : ratio_bound kd W -> slate_support e kd.
  Proof.
    intros H x s p k Hin Hp Hk. pose proof (propensity_pos kd k (se_nu e x) s p (sv_nu e He x) Hin Hp) as H1.
    pose proof (propensity_bounds kd k (se_mu e x) s (sv_mu e He x)) as [H2 _]. specialize (H x s k Hk).
    destruct H2 as [H2|H2]; auto. rewrite <- H2 in H. lra.
  Qed.
  Lemma swt_agree kd x k s t : agree kd k s t = true -> swt kd x k s = swt kd x k t.
  Proof. intros H. unfold swt. rewrite !(propensity_agree kd k _ s t H). reflexivity. Qed.
  Lemma swt_second kd W x k : ratio_bound kd W -> (k < se_L e)%nat ->
    expect (se_mu e x) (fun s => swt kd x k s * swt kd x k s) <= W.
  Proof.
    intros HW Hk.
    assert (E : expect (se_mu e x) (fun s => swt kd x k s * swt kd x k s) = expect (se_nu e x) (swt kd x k)).
    { apply (change_of_measure kd k (se_mu e x) (se_nu e x) (swt kd x k) (sv_mu e He x)).
      - intros s t Hst. apply swt_agree; auto.
      - intros s p Hs Hp. apply (ratio_support kd W HW x s p k); auto. }
    rewrite E. rewrite <- (expect_const (se_nu e x) W) by apply He. apply expect_le_supp; [apply He|]. intros s p Hs Hp. unfold swt.
    pose proof (ratio_support kd W HW x s p k Hs Hp Hk) as Hpos. apply (Rmult_le_reg_r (propensity kd k (se_mu e x) s)); auto.
    unfold Rdiv. rewrite Rmult_assoc, Rinv_l by lra. rewrite Rmult_1_r. apply HW; auto.
  Qed.

  Variable Rm : R.
  Hypothesis HR : forall x s r p k, In (r, p) (se_rd e x s) -> p <> 0 -> (k < se_L e)%nat -> Rabs (nth k r 0) <= Rm.

  Lemma sterm_second kd W i : ratio_bound kd W -> (i < se_n e)%nat ->
    expect (slate_round e i) (fun y => sterm kd (Some y) * sterm kd (Some y)) <= INR (se_L e) * (INR (se_L e) * (W * (Rm * Rm))).
  Proof.
    intros HW Hi. rewrite expect_slate_round.
    rewrite <- (expect_const (se_ctx e i) (INR (se_L e) * (INR (se_L e) * (W * (Rm * Rm))))) by (apply He; auto).
    apply expect_le_supp; [apply He; auto|]. intros x px _ _.
    apply Rle_trans with (expect (se_mu e x) (fun s => INR (se_L e) * sumn (se_L e) (fun k => swt kd x k s * swt kd x k s * (Rm * Rm)))).
    - apply expect_le_supp; [apply He|]. intros s ps _ _.
      rewrite <- (expect_const (se_rd e x s) (INR (se_L e) * sumn (se_L e) (fun k => swt kd x k s * swt kd x k s * (Rm * Rm)))) by apply He.
      apply expect_le_supp; [apply He|]. intros r pr Hr Hpr. unfold sterm. eapply Rle_trans; [apply sum_sq|].
      apply Rmult_le_compat_l; [apply pos_INR|]. apply sumn_le. intros k Hk. fold (swt kd x k s).
      pose proof (HR x s r pr k Hr Hpr Hk) as Hrk.
      assert (HRm : 0 <= Rm) by (eapply Rle_trans; [apply Rabs_pos|exact Hrk]).
      pose proof (sq_le (nth k r 0) Rm HRm Hrk) as Hsq.
      pose proof (Rle_0_sqr (swt kd x k s)) as Hw. unfold Rsqr in Hw.
      replace (nth k r 0 * swt kd x k s * (nth k r 0 * swt kd x k s)) with (swt kd x k s * swt kd x k s * (nth k r 0 * nth k r 0)) by ring.
      apply Rmult_le_compat_l; auto.
    - rewrite expect_scal, expect_sumn. apply Rmult_le_compat_l; [apply pos_INR|].
      rewrite <- (sumn_const (se_L e) (W * (Rm * Rm))). apply sumn_le. intros k Hk. rewrite expect_scal_r.
      apply Rmult_le_compat_r; [apply Rle_0_sqr|]. apply swt_second; auto.
  Qed.

  Lemma sterm_mean kd W : ratio_bound kd W -> reward_structure e kd ->
    avg (se_n e) (fun i => expect (slate_round e i) (fun y => sterm kd (Some y))) = slate_policy_value e.
  Proof.
    intros HW Hstr. unfold slate_policy_value. apply avg_ext. intros i Hi. rewrite expect_slate_round.
    apply expect_ext_all. intros x.
    transitivity (expect (se_mu e x) (fun s => sumn (se_L e) (fun k => swt kd x k s * slate_q e x s k))).
    { apply expect_ext_all. intros s. unfold sterm. rewrite expect_sumn. apply sumn_ext. intros k Hk.
      rewrite expect_scal_r. unfold slate_q, swt. lra. }
    rewrite !expect_sumn. apply sumn_ext. intros k Hk.
    apply change_of_measure; [apply He| |].
    - intros s t Hst. apply Hstr; auto.
    - intros s p Hin Hp. eapply (ratio_support kd W); eauto.
  Qed.

  Lemma ips_consistent kd W eps : ratio_bound kd W -> reward_structure e kd -> 0 < eps ->
    prob (slate_logs e) (fun o => let l := slate_log e kd o in
      estimate_off (ips_estimator kd (s_ids l) (s_rew l) (s_pos l) (s_p l) (s_pe l)) (slate_policy_value e) eps)
    <= INR (se_L e) * (INR (se_L e) * (W * (Rm * Rm))) / (INR (se_n e) * (eps * eps)).
  Proof.
    intros HW Hstr Heps. eapply Rle_trans.
    2:{ apply (chebyshev (slate_round e) (se_n e) (fun _ => sterm kd) (INR (se_L e) * (INR (se_L e) * (W * (Rm * Rm)))) eps (sv_n e He) Heps).
        intros; apply is_dist_slate_round; auto. intros i Hi. apply sterm_second; auto. }
    right. unfold prob, slate_logs. apply expect_ext. intros o p Ho Hp. rewrite (sterm_mean kd W HW Hstr).
    cbv zeta. rewrite (ips_on_log e He kd o p Ho Hp). unfold estimate_off, sterm. reflexivity.
  Qed.
End V.

(** ** C165 *)

(** If the weights of the kind the estimator uses are at most W and rewards at most Rm in absolute value, then on n
    independent slates the estimate misses the value of the evaluation policy by eps or more (or is no finite number)
    with probability at most L^2 W Rm^2 / (n eps^2). *)
Theorem C165_standard_consistent : forall (X : Type) (e : senv X) W Rm eps, senv_ok e -> 0 < eps ->
  (forall x s k, (k < se_L e)%nat -> propensity Standard k (se_nu e x) s <= W * propensity Standard k (se_mu e x) s) ->
  (forall x s r p k, In (r, p) (se_rd e x s) -> p <> 0 -> (k < se_L e)%nat -> Rabs (nth k r 0) <= Rm) ->
  prob (slate_logs e) (fun o => let l := slate_log e Standard o in
    estimate_off (sips_value (s_ids l) (s_rew l) (s_pos l) (s_p l) (s_pe l)) (slate_policy_value e) eps)
  <= INR (se_L e) ^ 2 * W * Rm ^ 2 / (INR (se_n e) * eps ^ 2).
Proof.
  intros X e W Rm eps He Heps HW HR. pose proof (ips_consistent e He Rm HR Standard W eps HW) as H.
  eapply Rle_trans; [apply H; auto|].
  - intros x s t k Hk Ha. simpl in Ha. destruct (list_eq_dec _ s t); [congruence|discriminate].
  - right. unfold Rdiv. replace (eps ^ 2) with (eps * eps) by ring. ring.
Qed.
Theorem C165_independent_consistent : forall (X : Type) (e : senv X) W Rm eps, senv_ok e -> 0 < eps ->
  (forall x s k, (k < se_L e)%nat -> propensity Independent k (se_nu e x) s <= W * propensity Independent k (se_mu e x) s) ->
  (forall x s r p k, In (r, p) (se_rd e x s) -> p <> 0 -> (k < se_L e)%nat -> Rabs (nth k r 0) <= Rm) ->
  reward_structure e Independent ->
  prob (slate_logs e) (fun o => let l := slate_log e Independent o in
    estimate_off (iips_value (s_ids l) (s_rew l) (s_pos l) (s_p l) (s_pe l)) (slate_policy_value e) eps)
  <= INR (se_L e) ^ 2 * W * Rm ^ 2 / (INR (se_n e) * eps ^ 2).
Proof.
  intros X e W Rm eps He Heps HW HR Hs. pose proof (ips_consistent e He Rm HR Independent W eps HW Hs Heps) as H.
  eapply Rle_trans; [exact H|]. right. unfold Rdiv. replace (eps ^ 2) with (eps * eps) by ring. ring.
Qed.
Theorem C165_cascade_consistent : forall (X : Type) (e : senv X) W Rm eps, senv_ok e -> 0 < eps ->
  (forall x s k, (k < se_L e)%nat -> propensity Cascade k (se_nu e x) s <= W * propensity Cascade k (se_mu e x) s) ->
  (forall x s r p k, In (r, p) (se_rd e x s) -> p <> 0 -> (k < se_L e)%nat -> Rabs (nth k r 0) <= Rm) ->
  reward_structure e Cascade ->
  prob (slate_logs e) (fun o => let l := slate_log e Cascade o in
    estimate_off (rips_value (s_ids l) (s_rew l) (s_pos l) (s_p l) (s_pe l)) (slate_policy_value e) eps)
  <= INR (se_L e) ^ 2 * W * Rm ^ 2 / (INR (se_n e) * eps ^ 2).
Proof.
  intros X e W Rm eps He Heps HW HR Hs. pose proof (ips_consistent e He Rm HR Cascade W eps HW Hs Heps) as H.
  eapply Rle_trans; [exact H|]. right. unfold Rdiv. replace (eps ^ 2) with (eps * eps) by ring. ring.
Qed.

(** The weights of the coarser kinds are never larger than those of the finer kinds need to be: a bound on the
    whole-slate weights is one on the cascade weights, and that one on the position weights. *)
Definition refines (kd kd' : skind) : Prop := forall k s t, agree kd k s t = true -> agree kd' k s t = true.
Lemma refines_standard kd : refines Standard kd.
Proof. intros k s t H. simpl in H. destruct (list_eq_dec _ s t) as [->|]; [apply agree_refl|discriminate]. Qed.
Lemma refines_cascade : refines Cascade Independent.
Proof.
  intros k s t H. simpl. rewrite (nth_firstn_eq k s), (nth_firstn_eq k t), (agree_firstn k s t (S k) H) by lia.
  destruct (Nat.eq_dec _ _); congruence.
Qed.

Section Order.
  Context {X : Type} (e : senv X) (He : senv_ok e).
  Variables fine coarse : skind.
  Hypothesis Href : refines fine coarse.
  Hypothesis Hsup : slate_support e fine.

  Lemma coarse_support : slate_support e coarse.
  Proof.
    intros x s p k Hin Hp Hk. pose proof (Hsup x s p k Hin Hp Hk) as H. eapply Rlt_le_trans; [exact H|].
    unfold propensity. apply expect_le_supp; [apply He|]. intros t q _ _. pose proof (Href k s t) as Hr.
    destruct (agree fine k s t); [rewrite Hr by auto; lra|]. destruct (agree coarse k s t); lra.
  Qed.

  (** For a function of the coarse part, the coarse weights have the smaller second moment. *)
  Lemma coarse_second x k h : (k < se_L e)%nat -> (forall s, 0 <= h s) -> (forall s t, agree coarse k s t = true -> h s = h t) ->
    expect (se_mu e x) (fun s => swt e coarse x k s * swt e coarse x k s * h s)
    <= expect (se_mu e x) (fun s => swt e fine x k s * swt e fine x k s * h s).
  Proof.
    intros Hk Hh Hc.
    assert (E1 : expect (se_mu e x) (fun s => swt e coarse x k s * swt e coarse x k s * h s) = expect (se_nu e x) (fun s => swt e coarse x k s * h s)).
    { rewrite <- (change_of_measure coarse k (se_mu e x) (se_nu e x) (fun s => swt e coarse x k s * h s) (sv_mu e He x)).
      - apply expect_ext_all. intros s. unfold swt. ring.
      - intros s t Hst. rewrite (swt_agree e coarse x k s t Hst), (Hc s t Hst). reflexivity.
      - intros s p Hs Hp. apply (coarse_support x s p k); auto. }
    assert (E2 : expect (se_mu e x) (fun s => swt e fine x k s * (swt e coarse x k s * h s)) = expect (se_nu e x) (fun s => swt e coarse x k s * h s)).
    { apply (change_of_measure fine k (se_mu e x) (se_nu e x) (fun s => swt e coarse x k s * h s) (sv_mu e He x)).
      - intros s t Hst. apply Href in Hst. rewrite (swt_agree e coarse x k s t Hst), (Hc s t Hst). reflexivity.
      - intros s p Hs Hp. apply (Hsup x s p k); auto. }
    assert (P : 0 <= expect (se_mu e x) (fun s => (swt e fine x k s - swt e coarse x k s) * (swt e fine x k s - swt e coarse x k s) * h s)).
    { apply expect_nonneg; [apply He|]. intros s p _. apply Rmult_le_pos; auto. apply Rle_0_sqr. }
    rewrite (expect_ext_all _ _ (fun s => swt e fine x k s * swt e fine x k s * h s - 2 * (swt e fine x k s * (swt e coarse x k s * h s))
       + swt e coarse x k s * swt e coarse x k s * h s)) in P by (intros; ring).
    rewrite expect_plus, expect_minus, expect_scal, E2, E1 in P. rewrite E1. lra.
  Qed.
End Order.

(** The reward of row (i, k), weighted, as slate_ipw_rounds returns it. *)
Lemma row_of_log {X} (e : senv X) (He : senv_ok e) kd o p : In (o, p) (slate_logs e) -> p <> 0 ->
  let l := slate_log e kd o in
  slate_ipw_rounds (s_rew l) (s_pos l) (s_p l) (s_pe l) = Ok (tabF (se_n e * se_L e) (fun j =>
    match nth_error o (j / se_L e) with
    | Some (x, s, r) => nth (j mod se_L e) r 0 * swt e kd x (j mod se_L e) s
    | None => 0 * (0 / 0) end)).
Proof.
  intros Ho Hp l. rewrite (ipw_rounds l (slate_log_ok e He kd o p Ho Hp)). f_equal. apply tab_ext. intros j Hj. f_equal.
  unfold s_weight, l, slate_log, swt; simpl. destruct (nth_error o (j / se_L e)) as [[[x s] r]|]; reflexivity.
Qed.

Lemma expect_one {A} n (D : nat -> dist A) (g : option A -> R) i : (i < n)%nat -> (forall j, (j < n)%nat -> is_dist (D j)) ->
  expect (dprod n D) (fun o => g (nth_error o i)) = expect (D i) (fun x => g (Some x)).
Proof.
  intros Hi Hd. pose proof (expect_dprod_sumn_opt n D (fun j y => (if Nat.eqb i j then 1 else 0) * g y) Hd) as H.
  assert (S1 : forall f, sumn n (fun j => (if Nat.eqb i j then 1 else 0) * f j) = f i).
  { intros f. clear -Hi. induction n as [|n IH]; [lia|]. cbn [sumn]. destruct (Nat.eqb_spec i n) as [->|Hne].
    - rewrite sumn_zero. ring. intros j Hj. destruct (Nat.eqb_spec n j); [lia|ring].
    - rewrite IH by lia. ring. }
  rewrite (expect_ext_all _ _ (fun o => g (nth_error o i))) in H.
  2:{ intros o. apply (S1 (fun j => g (nth_error o j))). }
  rewrite H. rewrite (sumn_ext n _ (fun j => (if Nat.eqb i j then 1 else 0) * expect (D j) (fun x => g (Some x)))).
  apply (S1 (fun j => expect (D j) (fun x => g (Some x)))). intros j Hj. apply expect_scal.
Qed.

(** ** C166 *)

(** Every row: the weighted reward of position k of slate i has the same mean under the fine and the coarse weights and
    a second moment (hence a variance) that is no larger under the coarse ones, when the reward at each position has
    mean and mean square that depend on the coarse part of the slate only. *)
Theorem C166_row_variance_never_grows : forall (X : Type) (e : senv X) fine coarse i k, senv_ok e ->
  (fine, coarse) = (Standard, Cascade) \/ (fine, coarse) = (Standard, Independent) \/ (fine, coarse) = (Cascade, Independent) ->
  slate_support e fine ->
  reward_structure e coarse ->
  (forall x s t k, (k < se_L e)%nat -> agree coarse k s t = true ->
     expect (se_rd e x s) (fun r => nth k r 0 ^ 2) = expect (se_rd e x t) (fun r => nth k r 0 ^ 2)) ->
  (i < se_n e)%nat -> (k < se_L e)%nat ->
  exists row_fine row_coarse,
    (forall o p, In (o, p) (slate_logs e) -> p <> 0 ->
       (exists A, slate_ipw_rounds (s_rew (slate_log e fine o)) (s_pos (slate_log e fine o)) (s_p (slate_log e fine o)) (s_pe (slate_log e fine o)) = Ok A
          /\ nth (i * se_L e + k) A NaN = Fin (row_fine o)) /\
       (exists A, slate_ipw_rounds (s_rew (slate_log e coarse o)) (s_pos (slate_log e coarse o)) (s_p (slate_log e coarse o)) (s_pe (slate_log e coarse o)) = Ok A
          /\ nth (i * se_L e + k) A NaN = Fin (row_coarse o))) /\
    expect (slate_logs e) row_coarse = expect (slate_logs e) row_fine /\
    expect (slate_logs e) (fun o => row_coarse o ^ 2) <= expect (slate_logs e) (fun o => row_fine o ^ 2).
Proof.
  intros X e fine coarse i k He Hkd Hsup Hstr Hsq Hi Hk.
  assert (Href : refines fine coarse).
  { destruct Hkd as [E|[E|E]]; injection E as -> ->; [apply refines_standard|apply refines_standard|apply refines_cascade]. }
  set (row := fun kd (y : option (X * list nat * list R)) => match y with
     | Some (x, s, r) => nth k r 0 * swt e kd x k s | None => 0 * (0 / 0) end).
  assert (HD : forall j, (j < se_n e)%nat -> is_dist (slate_round e j)) by (intros; apply is_dist_slate_round; auto).
  exists (fun o => row fine (nth_error o i)), (fun o => row coarse (nth_error o i)). split; [|split].
  - intros o p Ho Hp. assert (Hj : (i * se_L e + k < se_n e * se_L e)%nat) by nia. destruct (divmod_block i k (se_L e) Hk) as [E1 E2].
    split; eexists; (split; [apply (row_of_log e He _ o p Ho Hp)|]); unfold tabF; rewrite nth_tab by auto; rewrite E1, E2;
      unfold row; destruct (nth_error o i) as [[[x s] r]|]; reflexivity.
  - unfold slate_logs. rewrite !(expect_one (se_n e) (slate_round e)) by auto. rewrite !expect_slate_round. apply expect_ext_all. intros x.
    unfold row.
    assert (M : forall kd, (forall s t, agree kd k s t = true -> slate_q e x s k = slate_q e x t k) -> slate_support e kd ->
      expect (se_mu e x) (fun s => expect (se_rd e x s) (fun r => nth k r 0 * swt e kd x k s)) = expect (se_nu e x) (fun s => slate_q e x s k)).
    { intros kd Hq Hs. rewrite <- (change_of_measure kd k (se_mu e x) (se_nu e x) (fun s => slate_q e x s k) (sv_mu e He x)).
      - apply expect_ext_all. intros s. rewrite expect_scal_r. unfold slate_q, swt. ring.
      - auto.
      - intros s p Hin Hp. apply (Hs x s p k); auto. }
    rewrite (M coarse (fun s t Hst => Hstr x s t k Hk Hst) (coarse_support e He fine coarse Href Hsup)).
    rewrite (M fine (fun s t Hst => Hstr x s t k Hk (Href k s t Hst)) Hsup). reflexivity.
  - unfold slate_logs. rewrite (expect_one (se_n e) (slate_round e) (fun y => row coarse y ^ 2)) by auto.
    rewrite (expect_one (se_n e) (slate_round e) (fun y => row fine y ^ 2)) by auto. rewrite !expect_slate_round.
    apply expect_le_supp; [apply He; auto|]. intros x px _ _. unfold row.
    assert (M : forall kd, expect (se_mu e x) (fun s => expect (se_rd e x s) (fun r => (nth k r 0 * swt e kd x k s) ^ 2)) =
      expect (se_mu e x) (fun s => swt e kd x k s * swt e kd x k s * expect (se_rd e x s) (fun r => nth k r 0 ^ 2))).
    { intros kd. apply expect_ext_all. intros s. rewrite <- expect_scal. apply expect_ext_all. intros r. ring. }
    rewrite !M. apply (coarse_second e He fine coarse Href Hsup x k (fun s => expect (se_rd e x s) (fun r => nth k r 0 ^ 2)) Hk).
    + intros s. apply expect_nonneg; [apply He|]. intros. apply pow2_ge_0.
    + intros s t Hst. apply Hsq; auto.
Qed.

(** When only one position carries reward, the estimate with the coarse weights has the smaller mean squared error. *)
Theorem C166_single_position_mse : forall (X : Type) (e : senv X) fine coarse k0, senv_ok e ->
  (fine, coarse) = (Standard, Cascade) \/ (fine, coarse) = (Standard, Independent) \/ (fine, coarse) = (Cascade, Independent) ->
  slate_support e fine ->
  reward_structure e coarse ->
  (forall x s t k, (k < se_L e)%nat -> agree coarse k s t = true ->
     expect (se_rd e x s) (fun r => nth k r 0 ^ 2) = expect (se_rd e x t) (fun r => nth k r 0 ^ 2)) ->
  (k0 < se_L e)%nat ->
  (forall x s r p k, In (r, p) (se_rd e x s) -> p <> 0 -> (k < se_L e)%nat -> k <> k0 -> nth k r 0 = 0) ->
  let estimator kd := match kd with Standard => sips_value | Cascade => rips_value | Independent => iips_value end in
  exists est_fine est_coarse,
    (forall o p, In (o, p) (slate_logs e) -> p <> 0 ->
       (let l := slate_log e fine o in estimator fine (s_ids l) (s_rew l) (s_pos l) (s_p l) (s_pe l) = Ok (Fin (est_fine o))) /\
       (let l := slate_log e coarse o in estimator coarse (s_ids l) (s_rew l) (s_pos l) (s_p l) (s_pe l) = Ok (Fin (est_coarse o)))) /\
    let mse est := expect (slate_logs e) (fun o => (est o - slate_policy_value e) ^ 2) in
    mse est_coarse <= mse est_fine.
Proof.
  intros X e fine coarse k0 He Hkd Hsup Hstr Hsq Hk0 Hz estimator.
  assert (Href : refines fine coarse).
  { destruct Hkd as [E|[E|E]]; injection E as -> ->; [apply refines_standard|apply refines_standard|apply refines_cascade]. }
  assert (Hsupc := coarse_support e He fine coarse Href Hsup).
  assert (HD : forall j, (j < se_n e)%nat -> is_dist (slate_round e j)) by (intros; apply is_dist_slate_round; auto).
  assert (HN : 0 < INR (se_n e)) by (apply lt_0_INR, He).
  set (est := fun kd (o : list (X * list nat * list R)) => avg (se_n e) (fun i => sterm e kd (nth_error o i))).
  exists (est fine), (est coarse). split.
  - intros o p Ho Hp. split; [pose proof (ips_on_log e He fine o p Ho Hp) as H|pose proof (ips_on_log e He coarse o p Ho Hp) as H];
      cbv zeta in *; [destruct fine|destruct coarse]; exact H.
  - set (m := fun i => expect (se_ctx e i) (fun x => expect (se_nu e x) (fun s => slate_q e x s k0))).
    (* only position k0 contributes *)
    assert (Hone : forall kd x s r, (forall k, (k < se_L e)%nat -> k <> k0 -> nth k r 0 = 0) -> sterm e kd (Some (x, s, r)) = nth k0 r 0 * swt e kd x k0 s).
    { intros kd x s r Hr. unfold sterm. fold (swt e kd x k0 s).
      rewrite (sumn_ext (se_L e) _ (fun k => (if Nat.eqb k0 k then 1 else 0) * (nth k r 0 * swt e kd x k s))).
      - clear -Hk0. induction (se_L e) as [|n IH]; [lia|]. cbn [sumn]. destruct (Nat.eqb_spec k0 n) as [->|Hne].
        + rewrite sumn_zero. ring. intros j Hj. destruct (Nat.eqb_spec n j); [lia|ring].
        + rewrite IH by lia. ring.
      - intros k Hk. destruct (Nat.eqb_spec k0 k) as [->|Hne]; [unfold swt; ring|]. rewrite (Hr k Hk) by auto. ring. }
    assert (Mean : forall kd, (forall x s t, agree kd k0 s t = true -> slate_q e x s k0 = slate_q e x t k0) -> slate_support e kd ->
      forall i, (i < se_n e)%nat -> expect (slate_round e i) (fun y => sterm e kd (Some y)) = m i).
    { intros kd Hq Hs i Hi. unfold m. rewrite expect_slate_round. apply expect_ext_all. intros x.
      rewrite <- (change_of_measure kd k0 (se_mu e x) (se_nu e x) (fun s => slate_q e x s k0) (sv_mu e He x)).
      - apply expect_ext_all. intros s. rewrite (expect_ext (se_rd e x s) _ (fun r => nth k0 r 0 * swt e kd x k0 s)).
        rewrite expect_scal_r. unfold slate_q, swt. ring. intros r p Hr Hp. apply Hone. intros k Hk Hne. apply (Hz x s r p k); auto.
      - auto.
      - intros s p Hin Hp. apply (Hs x s p k0); auto. }
    assert (HqC : forall x s t, agree coarse k0 s t = true -> slate_q e x s k0 = slate_q e x t k0) by (intros; apply Hstr; auto).
    assert (HqF : forall x s t, agree fine k0 s t = true -> slate_q e x s k0 = slate_q e x t k0) by (intros; apply HqC, Href; auto).
    assert (Hv : slate_policy_value e = avg (se_n e) m).
    { unfold slate_policy_value, m. apply avg_ext. intros i Hi. apply expect_ext_all. intros x. apply expect_ext_all. intros s.
      assert (Hk : forall k, (k < se_L e)%nat -> slate_q e x s k = (if Nat.eqb k0 k then 1 else 0) * slate_q e x s k).
      { intros k Hk. destruct (Nat.eqb_spec k0 k) as [->|Hne]; [ring|]. rewrite Rmult_0_l. unfold slate_q.
        rewrite (expect_ext _ _ (fun _ => 0)). apply expect_const. apply He. intros r p Hr Hp. apply (Hz x s r p k); auto. }
      rewrite (sumn_ext (se_L e) (fun k => slate_q e x s k) (fun k => (if Nat.eqb k0 k then 1 else 0) * slate_q e x s k) Hk). clear -Hk0. induction (se_L e) as [|n IH]; [lia|]. cbn [sumn]. destruct (Nat.eqb_spec k0 n) as [->|Hne].
      + rewrite sumn_zero. ring. intros j Hj. destruct (Nat.eqb_spec n j); [lia|ring].
      + rewrite IH by lia. ring. }
    assert (MSE : forall kd, (forall x s t, agree kd k0 s t = true -> slate_q e x s k0 = slate_q e x t k0) -> slate_support e kd ->
      expect (slate_logs e) (fun o => (est kd o - slate_policy_value e) ^ 2) =
      / (INR (se_n e) * INR (se_n e)) * sumn (se_n e) (fun i => expect (slate_round e i) (fun y => sterm e kd (Some y) * sterm e kd (Some y)) - m i * m i)).
    { intros kd Hq Hs.
      rewrite (sumn_ext (se_n e) _ (fun i => expect (slate_round e i) (fun y => (sterm e kd (Some y) - m i) * (sterm e kd (Some y) - m i)))).
      - rewrite <- (second_moment (slate_round e) (se_n e) (fun i y => sterm e kd y - m i) HD).
        + unfold slate_logs. rewrite <- expect_scal. apply expect_ext_all. intros o. rewrite Hv. unfold est, avg. rewrite sumn_minus. field. lra.
        + intros i Hi. rewrite expect_minus, expect_const, Mean by auto. ring.
      - intros i Hi. rewrite (expect_ext_all _ (fun y => (sterm e kd (Some y) - m i) * (sterm e kd (Some y) - m i))
          (fun y => sterm e kd (Some y) * sterm e kd (Some y) - 2 * m i * sterm e kd (Some y) + m i * m i)) by (intros; ring).
        rewrite expect_plus, expect_minus, expect_scal, expect_const, Mean by auto. ring. }
    cbv beta zeta. rewrite !MSE by auto. apply Rmult_le_compat_l. { left. apply Rinv_0_lt_compat. nra. }
    apply sumn_le. intros i Hi. apply Rplus_le_compat_r. rewrite !expect_slate_round. apply expect_le_supp; [apply He; auto|]. intros x px _ _.
    assert (M : forall kd, expect (se_mu e x) (fun s => expect (se_rd e x s) (fun r => sterm e kd (Some (x, s, r)) * sterm e kd (Some (x, s, r)))) =
      expect (se_mu e x) (fun s => swt e kd x k0 s * swt e kd x k0 s * expect (se_rd e x s) (fun r => nth k0 r 0 ^ 2))).
    { intros kd. apply expect_ext_all. intros s. rewrite <- expect_scal. apply expect_ext. intros r p Hr Hp. rewrite Hone by (intros k Hk Hne; apply (Hz x s r p k); auto). ring. }
    rewrite !M. apply (coarse_second e He fine coarse Href Hsup x k0 (fun s => expect (se_rd e x s) (fun r => nth k0 r 0 ^ 2)) Hk0).
    + intros s. apply expect_nonneg; [apply He|]. intros. apply pow2_ge_0.
    + intros s t Hst. apply Hsq; auto.
Qed.

(** Without that restriction the order can be reversed, even for non-negative noise-free rewards of cascade structure: on
    slates whose first action is fixed, with rewards 1 and (1 if the second action is 0), the whole-slate weights give
    a mean squared error of zero and the cascade weights do not. *)
Definition rev_env : senv unit := {|
  se_n := 1; se_L := 2; se_ctx := fun _ => [(tt, 1)];
  se_mu := fun _ => [([0; 0]%nat, 1 / 2); ([0; 1]%nat, 1 / 2)];
  se_nu := fun _ => [([0; 0]%nat, 1 / 3); ([0; 1]%nat, 2 / 3)];
  se_rd := fun _ s => [([1; if Nat.eqb (nth 1 s 0%nat) 0 then 1 else 0], 1)] |}.

Theorem C166_cascade_weights_can_hurt :
  senv_ok rev_env /\ slate_support rev_env Standard /\ reward_structure rev_env Cascade /\
  (forall x s r p k, In (r, p) (se_rd rev_env x s) -> 0 <= nth k r 0) /\
  exists sips rips,
    (forall o p, In (o, p) (slate_logs rev_env) -> p <> 0 ->
       (let l := slate_log rev_env Standard o in sips_value (s_ids l) (s_rew l) (s_pos l) (s_p l) (s_pe l) = Ok (Fin (sips o))) /\
       (let l := slate_log rev_env Cascade o in rips_value (s_ids l) (s_rew l) (s_pos l) (s_p l) (s_pe l) = Ok (Fin (rips o)))) /\
    let mse est := expect (slate_logs rev_env) (fun o => (est o - slate_policy_value rev_env) ^ 2) in
    mse sips = 0 /\ mse rips = 1 / 9.
Proof.
  assert (He : senv_ok rev_env).
  { constructor; simpl; try lia; intros.
    - split; [|unfold expect; simpl; lra]. intros a p [E|[]]; injection E as <- <-; lra.
    - split; [|unfold expect; simpl; lra]. intros a p [E|[E|[]]]; injection E as <- <-; lra.
    - split; [|unfold expect; simpl; lra]. intros a p [E|[E|[]]]; injection E as <- <-; lra.
    - split; [|unfold expect; simpl; lra]. intros a p [E|[]]; injection E as <- <-; lra. }
  split; [exact He|]. split; [|split; [|split]].
  - intros x s p k H Hp Hk. simpl in H. destruct H as [E|[E|[]]]; injection E as <- <-; unfold propensity, expect; simpl; lra.
  - intros x s t k Hk H.
    assert (E1 : nth k s 0%nat = nth k t 0%nat).
    { rewrite (nth_firstn_eq k s), (nth_firstn_eq k t), (agree_firstn k s t (S k) H) by lia. reflexivity. }
    simpl in Hk. unfold slate_q, expect; simpl. destruct k as [|[|k]]; try lia; [lra|]. rewrite E1. reflexivity.
  - intros x s r p k [E|[]]. injection E as <- _. destruct k as [|[|[|k]]]; simpl; try lra. destruct (Nat.eqb _ _); lra.
  - exists (fun o => avg 1 (fun i => sterm rev_env Standard (nth_error o i))), (fun o => avg 1 (fun i => sterm rev_env Cascade (nth_error o i))).
    split.
    + intros o p Ho Hp. split; [exact (ips_on_log rev_env He Standard o p Ho Hp)|exact (ips_on_log rev_env He Cascade o p Ho Hp)].
    + cbv zeta. unfold slate_logs, slate_round, slate_policy_value, slate_q, avg, sterm, propensity, expect; simpl. split; field.
Qed.

(** The hypotheses of C165 and C166 in this environment: every weight is at most 4/3 and rewards are at most 1. *)
Lemma rev_env_ok : senv_ok rev_env.
Proof. apply C166_cascade_weights_can_hurt. Qed.
Lemma rev_ratio kd : forall x s k, (k < se_L rev_env)%nat -> propensity kd k (se_nu rev_env x) s <= 4 / 3 * propensity kd k (se_mu rev_env x) s.
Proof.
  intros x s k _. unfold propensity, expect. cbn [se_nu se_mu rev_env fold_right fst snd].
  destruct (agree kd k s [0; 0]%nat), (agree kd k s [0; 1]%nat); lra.
Qed.
Lemma rev_bound : forall x s r p k, In (r, p) (se_rd rev_env x s) -> p <> 0 -> (k < se_L rev_env)%nat -> Rabs (nth k r 0) <= 1.
Proof.
  intros x s r p k [E|[]] _ _. injection E as <- _. rewrite Rabs_right; destruct k as [|[|[|k]]]; simpl; try lra; destruct (Nat.eqb _ _); lra.
Qed.
Lemma rev_structure : reward_structure rev_env Cascade.
Proof. apply C166_cascade_weights_can_hurt. Qed.
Lemma rev_independent : reward_structure rev_env Independent.
Proof.
  intros x s t k Hk H. simpl in H. destruct (Nat.eq_dec (nth k s 0%nat) (nth k t 0%nat)) as [E1|]; [|discriminate].
  simpl in Hk. unfold slate_q, expect; simpl. destruct k as [|[|k]]; try lia; [lra|]. rewrite E1. reflexivity.
Qed.
Example C165_example : forall eps, 0 < eps ->
  prob (slate_logs rev_env) (fun o => let l := slate_log rev_env Standard o in
    estimate_off (sips_value (s_ids l) (s_rew l) (s_pos l) (s_p l) (s_pe l)) (slate_policy_value rev_env) eps)
  <= INR 2 ^ 2 * (4 / 3) * 1 ^ 2 / (INR 1 * eps ^ 2) /\
  prob (slate_logs rev_env) (fun o => let l := slate_log rev_env Cascade o in
    estimate_off (rips_value (s_ids l) (s_rew l) (s_pos l) (s_p l) (s_pe l)) (slate_policy_value rev_env) eps)
  <= INR 2 ^ 2 * (4 / 3) * 1 ^ 2 / (INR 1 * eps ^ 2) /\
  prob (slate_logs rev_env) (fun o => let l := slate_log rev_env Independent o in
    estimate_off (iips_value (s_ids l) (s_rew l) (s_pos l) (s_p l) (s_pe l)) (slate_policy_value rev_env) eps)
  <= INR 2 ^ 2 * (4 / 3) * 1 ^ 2 / (INR 1 * eps ^ 2).
Proof.
  intros eps He. split; [|split].
  - apply (C165_standard_consistent unit rev_env (4/3) 1 eps rev_env_ok He (rev_ratio Standard) rev_bound).
  - apply (C165_cascade_consistent unit rev_env (4/3) 1 eps rev_env_ok He (rev_ratio Cascade) rev_bound rev_structure).
  - apply (C165_independent_consistent unit rev_env (4/3) 1 eps rev_env_ok He (rev_ratio Independent) rev_bound rev_independent).
Qed.

(** [ex_senv 1] of P_Slate meets the hypotheses of the row theorem with whole-slate and cascade weights. *)
Example C166_row_example : senv_ok (ex_senv 1) /\ slate_support (ex_senv 1) Standard /\ reward_structure (ex_senv 1) Cascade /\
  (forall x s t k, (k < se_L (ex_senv 1))%nat -> agree Cascade k s t = true ->
     expect (se_rd (ex_senv 1) x s) (fun r => nth k r 0 ^ 2) = expect (se_rd (ex_senv 1) x t) (fun r => nth k r 0 ^ 2)).
Proof.
  split; [apply ex_senv_ok|]. split; [apply ex_senv_support|]. split; [apply ex_senv_cascade|]. intros x s t k Hk H.
  assert (E0 : nth 0 s 0%nat = nth 0 t 0%nat).
  { rewrite (nth_firstn_eq 0 s), (nth_firstn_eq 0 t), (agree_firstn k s t 1 H) by lia. reflexivity. }
  assert (E1 : nth k s 0%nat = nth k t 0%nat).
  { rewrite (nth_firstn_eq k s), (nth_firstn_eq k t), (agree_firstn k s t (S k) H) by lia. reflexivity. }
  simpl in Hk. unfold expect; simpl. destruct k as [|[|k]]; try lia; rewrite ?E0, ?E1; lra.
Qed.

(** The environment above with no reward at the first position meets those of the single-position theorem. *)
Definition last_env : senv unit := {|
  se_n := 3; se_L := 2; se_ctx := fun _ => [(tt, 1)];
  se_mu := fun _ => [([0; 0]%nat, 1 / 4); ([1; 1]%nat, 1 / 2); ([0; 1]%nat, 1 / 4)];
  se_nu := fun _ => [([0; 0]%nat, 1 / 3); ([0; 1]%nat, 2 / 3)];
  se_rd := fun _ s => [([0; if Nat.eqb (nth 1 s 0%nat) 0 then 1 else 0], 1)] |}.
Example C166_single_example : exists sips iips,
    (forall o p, In (o, p) (slate_logs last_env) -> p <> 0 ->
       (let l := slate_log last_env Standard o in sips_value (s_ids l) (s_rew l) (s_pos l) (s_p l) (s_pe l) = Ok (Fin (sips o))) /\
       (let l := slate_log last_env Independent o in iips_value (s_ids l) (s_rew l) (s_pos l) (s_p l) (s_pe l) = Ok (Fin (iips o)))) /\
    let mse est := expect (slate_logs last_env) (fun o => (est o - slate_policy_value last_env) ^ 2) in
    mse iips <= mse sips.
Proof.
  apply (C166_single_position_mse unit last_env Standard Independent 1).
  - constructor; simpl; try lia; intros; (split; [|unfold expect; simpl; lra]).
    + intros a p [E|[]]; injection E as <- <-; lra.
    + intros a p [E|[E|[E|[]]]]; injection E as <- <-; lra.
    + intros a p [E|[E|[]]]; injection E as <- <-; lra.
    + intros a p [E|[]]; injection E as <- <-; lra.
  - auto.
  - intros x s p k H Hp Hk. simpl in H. destruct H as [E|[E|[]]]; injection E as <- <-; unfold propensity, expect; simpl; lra.
  - intros x s t k Hk H. simpl in H. destruct (Nat.eq_dec (nth k s 0%nat) (nth k t 0%nat)) as [E1|]; [|discriminate].
    simpl in Hk. unfold slate_q, expect; simpl. destruct k as [|[|k]]; try lia; [lra|]. rewrite E1. reflexivity.
  - intros x s t k Hk H. simpl in H. destruct (Nat.eq_dec (nth k s 0%nat) (nth k t 0%nat)) as [E1|]; [|discriminate].
    simpl in Hk. unfold expect; simpl. destruct k as [|[|k]]; try lia; [lra|]. rewrite E1. reflexivity.
  - simpl. lia.
  - intros x s r p k [E|[]] _ Hk Hne. injection E as <- _. simpl in Hk. destruct k as [|[|k]]; try lia; reflexivity.
Qed.

Print Assumptions C165_standard_consistent.
Print Assumptions C165_cascade_consistent.
Print Assumptions C166_row_variance_never_grows.
Print Assumptions C166_single_position_mse.
Print Assumptions C166_cascade_weights_can_hurt.
