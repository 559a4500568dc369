(** * L_Cont: lemmas about kernels and kernelised estimators. *)

From Coq Require Import Reals List ZArith Lia Lra Classical_Prop.
From Verif Require Import Num NpList M_Utils M_Estimators M_Cont S_Base S_Estimators S_Cont
  L_Num L_Base L_Estimators.
Import ListNotations.
Open Scope R_scope.

Definition Kspec (k : kernel_name) : R -> R :=
  match k with
  | Gaussian => K_gaussian | Epanechnikov => K_epanechnikov
  | Triangular => K_triangular | Cosine => K_cosine
  end.

Lemma clip11_Fin u : clip11 (Fin u) = Fin (Rmin (Rmax u (-1)) 1).
Proof. unfold clip11. rewrite nmax_Fin, nmin_Fin. reflexivity. Qed.

Lemma clip_cases u : (u < -1 /\ Rmin (Rmax u (-1)) 1 = -1) \/ (-1 <= u <= 1 /\ Rmin (Rmax u (-1)) 1 = u)
  \/ (1 < u /\ Rmin (Rmax u (-1)) 1 = 1).
Proof.
  unfold Rmin, Rmax. destruct (Rle_dec u (-1)); destruct (Rle_dec _ 1); lra.
Qed.

Lemma sqrt2PI_pos : 0 < sqrt (2 * PI).
Proof. apply sqrt_lt_R0. pose proof PI_RGT_0. lra. Qed.

Lemma cos_half_pi_neg : cos (-1 * PI / 2) = 0.
Proof. replace (-1 * PI / 2) with (- (PI / 2)) by lra. rewrite cos_neg. apply cos_PI2. Qed.

Lemma kernel_Fin k u : kernel_functions k (Fin u) = Fin (Kspec k u).
Proof.
  destruct k; cbn [kernel_functions Kspec].
  - unfold gaussian_kernel, nsqr. rewrite nmul_Fin. cbn [nopp]. rewrite ndiv_Fin by lra. cbn [nexp].
    pose proof sqrt2PI_pos. rewrite ndiv_Fin by lra. unfold K_gaussian, Rdiv. f_equal. apply Rmult_comm.
  - unfold epanechnikov_kernel. rewrite clip11_Fin. unfold nsqr. rewrite nmul_Fin, nsub_Fin, nmul_Fin. f_equal.
    unfold K_epanechnikov. destruct (clip_cases u) as [[H ->]|[[H ->]|[H ->]]];
    destruct (Rle_dec (Rabs u) 1) as [Hl|Hl]; unfold Rabs in Hl; destruct (Rcase_abs u); lra.
  - unfold triangular_kernel. rewrite clip11_Fin. cbn [nabs]. rewrite nsub_Fin. f_equal.
    unfold K_triangular. destruct (clip_cases u) as [[H ->]|[[H ->]|[H ->]]];
    unfold Rmax, Rabs; repeat (destruct (Rcase_abs _)); destruct (Rle_dec _ _); lra.
  - unfold cosine_kernel. rewrite clip11_Fin, nmul_Fin, ndiv_Fin by lra. cbn [ncos]. rewrite nmul_Fin. f_equal.
    unfold K_cosine. pose proof cos_PI2. pose proof cos_half_pi_neg.
    destruct (clip_cases u) as [[H1 ->]|[[H1 ->]|[H1 ->]]];
    destruct (Rle_dec (Rabs u) 1) as [Hl|Hl]; unfold Rabs in Hl; destruct (Rcase_abs u); try lra.
    + rewrite H0. lra.
    + f_equal. f_equal. lra.
    + f_equal. f_equal. lra.
    + replace (1 * PI / 2) with (PI / 2) by lra. rewrite H. lra.
Qed.

Lemma clip11_PInf : clip11 PInf = Fin 1.
Proof. reflexivity. Qed.
Lemma clip11_NInf : clip11 NInf = Fin (-1).
Proof. unfold clip11. change (nmax NInf (Fin (-1))) with (Fin (-1)). rewrite nmin_Fin, Rmin_left by lra. reflexivity. Qed.
Lemma clip11_NaN : clip11 NaN = NaN.
Proof. reflexivity. Qed.

Lemma kernel_inf k : kernel_functions k PInf = Fin 0 /\ kernel_functions k NInf = Fin 0 /\
  kernel_functions k NaN = NaN.
Proof.
  pose proof sqrt2PI_pos.
  destruct k; cbn [kernel_functions].
  - unfold gaussian_kernel. simpl. rdec. simpl. rdec. repeat split; auto; f_equal; field; lra.
  - unfold epanechnikov_kernel. rewrite clip11_PInf, clip11_NInf, clip11_NaN. unfold nsqr. simpl. repeat split; auto; f_equal; lra.
  - unfold triangular_kernel. rewrite clip11_PInf, clip11_NInf, clip11_NaN. simpl.
    rewrite Rabs_R1, (Rabs_left (-1)) by lra. repeat split; auto; f_equal; lra.
  - unfold cosine_kernel. rewrite clip11_PInf, clip11_NInf, clip11_NaN, !nmul_Fin, !ndiv_Fin by lra. cbn [ncos].
    rewrite cos_half_pi_neg. replace (1 * PI / 2) with (PI / 2) by lra. rewrite cos_PI2, nmul_Fin.
    repeat split; auto; f_equal; lra.
Qed.

(** ** Shape of the kernels *)

Lemma K_nonneg k u : 0 <= Kspec k u.
Proof.
  destruct k; simpl.
  - unfold K_gaussian. pose proof sqrt2PI_pos. apply Rmult_le_pos.
    apply Rlt_le, Rinv_0_lt_compat; auto. apply Rlt_le, exp_pos.
  - unfold K_epanechnikov. destruct (Rle_dec _ _); [|lra]. unfold Rabs in *. destruct (Rcase_abs u); nra.
  - unfold K_triangular. apply Rmax_l.
  - unfold K_cosine. destruct (Rle_dec _ _) as [H|H]; [|lra]. pose proof PI_RGT_0.
    assert (0 <= cos (PI / 2 * u)).
    { apply cos_ge_0; unfold Rabs in H; destruct (Rcase_abs u); nra. }
    nra.
Qed.

Lemma K_gaussian_pos u : 0 < K_gaussian u.
Proof.
  unfold K_gaussian. pose proof sqrt2PI_pos. apply Rmult_lt_0_compat.
  apply Rinv_0_lt_compat; auto. apply exp_pos.
Qed.

Lemma K_sym k u : Kspec k (- u) = Kspec k u.
Proof.
  destruct k; simpl.
  - unfold K_gaussian. do 3 f_equal. lra.
  - unfold K_epanechnikov. rewrite Rabs_Ropp. destruct (Rle_dec _ _); auto. lra.
  - unfold K_triangular. rewrite Rabs_Ropp. reflexivity.
  - unfold K_cosine. rewrite Rabs_Ropp. destruct (Rle_dec _ _); auto.
    replace (PI / 2 * - u) with (- (PI / 2 * u)) by lra. rewrite cos_neg. reflexivity.
Qed.

Lemma K_support k u : k <> Gaussian -> 1 <= Rabs u -> Kspec k u = 0.
Proof.
  intros Hk Hu. destruct k; simpl; try congruence.
  - unfold K_epanechnikov. destruct (Rle_dec _ _); auto.
    assert (u = 1 \/ u = -1) as [->| ->] by (unfold Rabs in *; destruct (Rcase_abs u); lra); lra.
  - unfold K_triangular. rewrite Rmax_left; lra.
  - unfold K_cosine. destruct (Rle_dec _ _); auto.
    assert (u = 1 \/ u = -1) as [->| ->] by (unfold Rabs in *; destruct (Rcase_abs u); lra).
    + rewrite Rmult_1_r, cos_PI2. lra.
    + replace (PI / 2 * -1) with (-1 * PI / 2) by lra. rewrite cos_half_pi_neg. lra.
Qed.

Lemma K_max k u : Kspec k u <= Kspec k 0.
Proof.
  destruct k; simpl.
  - unfold K_gaussian. pose proof sqrt2PI_pos. apply Rmult_le_compat_l.
    apply Rlt_le, Rinv_0_lt_compat; auto.
    assert (- (u * u) / 2 <= - (0 * 0) / 2) as [H0|E] by nra.
    + apply Rlt_le, exp_increasing; auto. + rewrite E. lra.
  - unfold K_epanechnikov. rewrite Rabs_R0. destruct (Rle_dec 0 1); [|lra].
    destruct (Rle_dec _ _); nra.
  - unfold K_triangular. rewrite Rabs_R0. pose proof (Rabs_pos u).
    apply Rle_trans with 1. unfold Rmax; destruct (Rle_dec _ _); lra. rewrite Rmax_right; lra.
  - unfold K_cosine. rewrite Rabs_R0. destruct (Rle_dec 0 1); [|lra]. pose proof PI_RGT_0.
    rewrite Rmult_0_r, cos_0. destruct (Rle_dec _ _); [|nra].
    pose proof (COS_bound (PI / 2 * u)). nra.
Qed.

Lemma K0_pos k : 0 < Kspec k 0.
Proof.
  destruct k; simpl.
  - apply K_gaussian_pos.
  - unfold K_epanechnikov. rewrite Rabs_R0. destruct (Rle_dec 0 1); lra.
  - unfold K_triangular. rewrite Rabs_R0, Rmax_right; lra.
  - unfold K_cosine. rewrite Rabs_R0. destruct (Rle_dec 0 1); [|lra].
    rewrite Rmult_0_r, cos_0. pose proof PI_RGT_0. lra.
Qed.

(** ** Estimators *)

Lemma any_le0_tab n p : (forall i, (i < n)%nat -> 0 < p i) -> any_le0 (tabF n p) = false.
Proof. intros H. unfold any_le0, tabF. apply existsb_tab_false. intros i Hi. simpl. apply Rleb_false. auto. Qed.

Lemma c_check_ok l qo : c_accepted l -> (qo = None \/ qo = Some (c_model l)) ->
  check_continuous_ope_inputs (c_chosen l) (Some (c_logged l)) (Some (c_rewards l)) (Some (c_pscores l)) qo = Ok tt.
Proof.
  intros H Hq. unfold check_continuous_ope_inputs, c_chosen, c_logged, c_rewards, c_pscores.
  rewrite any_le0_tab by (apply H).
  assert (E : forall f, length (tabF (cl_n l) f) = cl_n l) by (intros; apply tab_length).
  rewrite !E, !Nat.eqb_refl.
  destruct Hq as [->| ->]; [|unfold c_model; rewrite E, Nat.eqb_refl]; reflexivity.
Qed.

Lemma kernel_arg_ok h l : h <> 0 ->
  kernel_arg (Fin h) (c_chosen l) (c_logged l) = Ok (tabF (cl_n l) (fun i => (cl_e l i - cl_b l i) / h)).
Proof.
  intros Hh. unfold kernel_arg, c_chosen, c_logged. rewrite (bcast2_tabF nsub Rminus) by reflexivity.
  cbn [bind]. f_equal. unfold tabF. rewrite map_tab. apply tab_ext. intros i Hi. apply ndiv_Fin; auto.
Qed.

Lemma map_kernel k n f : map (kernel_functions k) (tabF n f) = tabF n (fun i => Kspec k (f i)).
Proof. unfold tabF. rewrite map_tab. apply tab_ext. intros; apply kernel_Fin. Qed.

Lemma kipw_round_ok k h l : c_accepted l -> h <> 0 ->
  kipw_round k (Fin h) (c_rewards l) (c_logged l) (c_pscores l) (c_chosen l)
  = Ok (tabF (cl_n l) (fun i => c_weight (Kspec k) h l i * cl_r l i)).
Proof.
  intros H Hh. unfold kipw_round. rewrite kernel_arg_ok by auto. cbn [bind]. rewrite map_kernel.
  unfold c_rewards. rewrite (bcast2_tabF nmul Rmult) by reflexivity. cbn [bind].
  unfold c_pscores. rewrite (bcast2_tabF ndiv Rdiv).
  2:{ intros i Hi. apply ndiv_Fin. pose proof (ca_p l H i Hi). lra. }
  cbn [bind]. f_equal. unfold tabF. rewrite map_tab. apply tab_ext. intros i Hi.
  rewrite ndiv_Fin by auto. f_equal. unfold c_weight. pose proof (ca_p l H i Hi). field. split; auto; lra.
Qed.

Lemma kdr_round_ok k h l : c_accepted l -> h <> 0 ->
  kdr_round k (Fin h) (c_model l) (c_rewards l) (c_logged l) (c_pscores l) (c_chosen l)
  = Ok (tabF (cl_n l) (fun i => c_weight (Kspec k) h l i * (cl_r l i - cl_q l i) + cl_q l i)).
Proof.
  intros H Hh. unfold kdr_round. rewrite kernel_arg_ok by auto. cbn [bind]. rewrite map_kernel.
  unfold c_rewards, c_model. rewrite (bcast2_tabF nsub Rminus) by reflexivity. cbn [bind].
  rewrite (bcast2_tabF nmul Rmult) by reflexivity. cbn [bind].
  unfold c_pscores. rewrite (bcast2_tabF ndiv Rdiv).
  2:{ intros i Hi. apply ndiv_Fin. pose proof (ca_p l H i Hi). lra. }
  cbn [bind].
  replace (map _ (tabF (cl_n l) _)) with (tabF (cl_n l) (fun i => c_weight (Kspec k) h l i * (cl_r l i - cl_q l i))).
  - apply iadd_tabF.
  - unfold tabF. rewrite map_tab. apply tab_ext. intros i Hi.
    rewrite ndiv_Fin by auto. f_equal. unfold c_weight. pose proof (ca_p l H i Hi). field. split; auto; lra.
Qed.

Lemma ksnipw_round_ok k h l : c_accepted l -> h <> 0 -> sumn (cl_n l) (c_weight (Kspec k) h l) <> 0 ->
  ksnipw_round k (Fin h) (c_rewards l) (c_logged l) (c_pscores l) (c_chosen l)
  = Ok (tabF (cl_n l) (fun i => c_weight (Kspec k) h l i * cl_r l i / avg (cl_n l) (c_weight (Kspec k) h l))).
Proof.
  intros H Hh Hs. unfold ksnipw_round. rewrite kernel_arg_ok by auto. cbn [bind]. rewrite map_kernel.
  unfold c_rewards. rewrite (bcast2_tabF nmul Rmult) by reflexivity. cbn [bind].
  unfold c_pscores. rewrite (bcast2_tabF ndiv Rdiv).
  2:{ intros i Hi. apply ndiv_Fin. pose proof (ca_p l H i Hi). lra. }
  cbn [bind]. rewrite (bcast2_tabF ndiv Rdiv).
  2:{ intros i Hi. apply ndiv_Fin. pose proof (ca_p l H i Hi). lra. }
  cbn [bind]. rewrite nmean_tabF by (apply H).
  pose proof (INR_pos _ (ca_n l H)) as Hn.
  assert (E : avg (cl_n l) (fun i => Kspec k ((cl_e l i - cl_b l i) / h) / cl_p l i)
              = h * avg (cl_n l) (c_weight (Kspec k) h l)).
  { rewrite <- avg_scal. apply avg_ext. intros i Hi. unfold c_weight. pose proof (ca_p l H i Hi). field. split; auto; lra. }
  rewrite E. assert (avg (cl_n l) (c_weight (Kspec k) h l) <> 0).
  { unfold avg, Rdiv. apply Rmult_integral_contrapositive. split; auto. apply Rinv_neq_0_compat; lra. }
  f_equal. unfold tabF. rewrite map_tab. apply tab_ext. intros i Hi.
  rewrite ndiv_Fin by (apply Rmult_integral_contrapositive; auto). f_equal. unfold c_weight.
  pose proof (ca_p l H i Hi). field. repeat split; auto; lra.
Qed.

Lemma classic_exists_lt n (P : nat -> Prop) : (exists i, (i < n)%nat /\ P i) \/ ~ (exists i, (i < n)%nat /\ P i).
Proof. apply Classical_Prop.classic. Qed.

(** ** Degenerate bandwidths *)

Lemma kernel_arg_gen h l : kernel_arg h (c_chosen l) (c_logged l)
  = Ok (tab (cl_n l) (fun i => ndiv (Fin (cl_e l i - cl_b l i)) h)).
Proof.
  unfold kernel_arg, c_chosen, c_logged. rewrite (bcast2_tabF nsub Rminus) by reflexivity.
  cbn [bind]. unfold tabF. rewrite map_tab. reflexivity.
Qed.

(** At bandwidth zero each kernel value is 0 or NaN. *)
Lemma kernel_zero_bandwidth k x : kernel_functions k (ndiv (Fin x) (Fin 0)) = Fin 0 \/
  kernel_functions k (ndiv (Fin x) (Fin 0)) = NaN.
Proof.
  destruct (kernel_inf k) as (E1 & E2 & E3). simpl. rewrite Reqb_refl. unfold inf_sign.
  destruct (Rltb 0 x). rewrite E1; auto. destruct (Rltb x 0). rewrite E2; auto. rewrite E3; auto.
Qed.

Lemma kipw_round_zero k l : c_accepted l ->
  exists rr, kipw_round k (Fin 0) (c_rewards l) (c_logged l) (c_pscores l) (c_chosen l) = Ok rr /\ In NaN rr.
Proof.
  intros H. unfold kipw_round. rewrite kernel_arg_gen. cbn [bind]. rewrite map_tab.
  unfold c_rewards, tabF. rewrite bcast2_tab. cbn [bind].
  unfold c_pscores, tabF. rewrite bcast2_tab. cbn [bind]. rewrite map_tab.
  eexists. split. reflexivity. apply In_tab. exists 0%nat. split. apply H.
  pose proof (ca_p l H 0%nat (ca_n l H)) as Hp.
  destruct (kernel_zero_bandwidth k (cl_e l 0%nat - cl_b l 0%nat)) as [-> | ->].
  - rewrite nmul_Fin, ndiv_Fin by lra. replace (0 * cl_r l 0%nat / cl_p l 0%nat) with 0 by (field; lra).
    apply ndiv_0_0.
  - rewrite nmul_NaN_l, !ndiv_NaN_l. reflexivity.
Qed.

Lemma kdr_round_zero k l : c_accepted l ->
  exists rr, kdr_round k (Fin 0) (c_model l) (c_rewards l) (c_logged l) (c_pscores l) (c_chosen l) = Ok rr /\ In NaN rr.
Proof.
  intros H. unfold kdr_round. rewrite kernel_arg_gen. cbn [bind]. rewrite map_tab.
  unfold c_rewards, c_model, tabF. rewrite bcast2_tab. cbn [bind]. rewrite bcast2_tab. cbn [bind].
  unfold c_pscores, tabF. rewrite bcast2_tab. cbn [bind]. rewrite map_tab.
  unfold iadd. rewrite !tab_length, Nat.eqb_refl. cbn [orb]. rewrite bcast2_tab.
  eexists. split. reflexivity. apply In_tab. exists 0%nat. split. apply H.
  pose proof (ca_p l H 0%nat (ca_n l H)) as Hp. rewrite nsub_Fin.
  destruct (kernel_zero_bandwidth k (cl_e l 0%nat - cl_b l 0%nat)) as [-> | ->].
  - rewrite nmul_Fin, ndiv_Fin by lra.
    replace (0 * (cl_r l 0%nat - cl_q l 0%nat) / cl_p l 0%nat) with 0 by (field; lra).
    rewrite ndiv_0_0. reflexivity.
  - rewrite nmul_NaN_l, !ndiv_NaN_l. reflexivity.
Qed.

Lemma nsum_zeros l : (forall x, In x l -> x = Fin 0) -> nsum l = Fin 0.
Proof.
  induction l; intros H; auto. unfold nsum in *. simpl. rewrite IHl by (intros; apply H; simpl; auto).
  rewrite (H a) by (simpl; auto). simpl. f_equal; lra.
Qed.

Lemma ksnipw_round_zero k l : c_accepted l ->
  exists rr, ksnipw_round k (Fin 0) (c_rewards l) (c_logged l) (c_pscores l) (c_chosen l) = Ok rr /\ In NaN rr.
Proof.
  intros H. unfold ksnipw_round. rewrite kernel_arg_gen. cbn [bind]. rewrite map_tab.
  unfold c_rewards, tabF. rewrite bcast2_tab. cbn [bind].
  unfold c_pscores, tabF. rewrite bcast2_tab. cbn [bind]. rewrite bcast2_tab. cbn [bind]. rewrite map_tab.
  eexists. split. reflexivity. apply In_tab.
  set (W := tab (cl_n l) _).
  assert (HW : forall x, In x W -> x = Fin 0 \/ x = NaN).
  { intros x Hx. apply In_tab in Hx as (i & Hi & <-). pose proof (ca_p l H i Hi) as Hp.
    destruct (kernel_zero_bandwidth k (cl_e l i - cl_b l i)) as [-> | ->].
    - left. rewrite ndiv_Fin by lra. f_equal. field. lra.
    - right. reflexivity. }
  assert (Hm : nmean W = Fin 0 \/ nmean W = NaN).
  { destruct (existsb is_nan W) eqn:Hin.
    - right. apply nmean_NaN. apply existsb_exists in Hin as (x & Hx & Hn). destruct x; simpl in Hn; congruence.
    - left. unfold nmean. rewrite nsum_zeros.
      + unfold W. rewrite tab_length. unfold nnat. pose proof (INR_pos _ (ca_n l H)).
        rewrite ndiv_Fin by lra. f_equal. field. lra.
      + intros x Hx. destruct (HW x Hx) as [->| ->]; auto. exfalso.
        assert (existsb is_nan W = true) by (apply existsb_exists; exists NaN; auto). congruence. }
  exists 0%nat. split. apply H. pose proof (ca_p l H 0%nat (ca_n l H)) as Hp.
  destruct Hm as [-> | ->]; [|apply ndiv_NaN_r].
  destruct (kernel_zero_bandwidth k (cl_e l 0%nat - cl_b l 0%nat)) as [-> | ->].
  - rewrite nmul_Fin, ndiv_Fin by lra. replace (0 * cl_r l 0%nat / cl_p l 0%nat) with 0 by (field; lra).
    apply ndiv_0_0.
  - rewrite nmul_NaN_l, !ndiv_NaN_l. reflexivity.
Qed.
