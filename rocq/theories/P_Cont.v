(** * P_Cont: properties C44-C46, C87, C88 (continuous-action estimators). *)

From Coq Require Import Reals List ZArith Lia Lra.
From Coquelicot Require Import Coquelicot.
From Verif Require Import Num NpList M_Utils M_Estimators M_Cont S_Base S_Estimators S_Cont
  L_Num L_Base L_Estimators L_EstProps L_Examples L_Utils L_Cont L_ContInt P_Multi.
Import ListNotations.
Open Scope R_scope.

(** ** C44: the kernels *)

(** On every real argument the library kernel is the textbook kernel. *)
Theorem C44_kernels : forall u,
  kernel_functions Triangular (Fin u) = Fin (K_triangular u) /\
  kernel_functions Epanechnikov (Fin u) = Fin (K_epanechnikov u) /\
  kernel_functions Cosine (Fin u) = Fin (K_cosine u) /\
  kernel_functions Gaussian (Fin u) = Fin (K_gaussian u).
Proof. intros u. rewrite !kernel_Fin. repeat split. Qed.

(** Shape: a finite non-negative symmetric function, maximal (and positive) at 0. *)
Theorem C44_shape : forall k, exists K : R -> R,
  (forall u, kernel_functions k (Fin u) = Fin (K u)) /\
  (forall u, 0 <= K u) /\ (forall u, K (- u) = K u) /\ (forall u, K u <= K 0) /\ 0 < K 0.
Proof.
  intros k. exists (Kspec k). split. apply kernel_Fin. split. apply K_nonneg. split. apply K_sym.
  split. apply K_max. apply K0_pos.
Qed.

(** The three compact kernels vanish outside (-1,1) and integrate to one. *)
Theorem C44_compact : forall k, k <> Gaussian -> exists K : R -> R,
  (forall u, kernel_functions k (Fin u) = Fin (K u)) /\
  (forall u, 1 <= Rabs u -> K u = 0) /\
  is_RInt K (-1) 1 1.
Proof.
  intros k Hk. exists (Kspec k). split. apply kernel_Fin. split. intros; apply K_support; auto.
  apply (is_RInt_ext (V := R_NormedModule) (fun u => (1 + 0 * u) * Kspec k u)).
  - intros u _. change ((1 + 0 * u) * Kspec k u = Kspec k u). ring.
  - apply int_compact; auto.
Qed.

(** The Gaussian kernel is positive everywhere and its integral over [a,b] tends to one as a -> -oo, b -> +oo. *)
Theorem C44_gaussian : exists K : R -> R,
  (forall u, kernel_functions Gaussian (Fin u) = Fin (K u)) /\
  (forall u, 0 < K u) /\
  (forall eps, 0 < eps -> exists M, 0 < M /\ forall a b, a <= - M -> M <= b ->
     exists I, is_RInt K a b I /\ 1 - eps < I <= 1).
Proof.
  exists K_gaussian. split. intros; apply (kernel_Fin Gaussian). split. apply K_gaussian_pos. apply gaussian_total.
Qed.

(** Infinite arguments give 0 and NaN gives NaN. *)
Theorem C44_non_finite : forall k, kernel_functions k PInf = Fin 0 /\ kernel_functions k NInf = Fin 0 /\
  kernel_functions k NaN = NaN.
Proof. apply kernel_inf. Qed.

Example C44_example : kernel_functions Triangular (Fin (1/2)) = Fin (1/2) /\
  kernel_functions Epanechnikov (Fin (1/2)) = Fin (9/16) /\
  kernel_functions Epanechnikov (Fin (-3)) = Fin 0.
Proof.
  destruct (C44_kernels (1/2)) as (-> & -> & _). destruct (C44_kernels (-3)) as (_ & -> & _).
  unfold K_triangular, K_epanechnikov. rewrite (Rabs_right (1/2)), (Rabs_left (-3)) by lra.
  rewrite Rmax_right by lra. destruct (Rle_dec (1/2) 1); [|lra]. destruct (Rle_dec (- -3) 1); [lra|].
  repeat split; f_equal; lra.
Qed.

(** ** C45: the estimators *)

Theorem C45_kipw_value : forall k h l, c_accepted l -> 0 < h -> exists K : R -> R,
  (forall u, kernel_functions k (Fin u) = Fin (K u)) /\
  kipw_value k (Fin h) (c_rewards l) (c_logged l) (c_pscores l) (c_chosen l) = Ok (Fin (spec_kipw K h l)).
Proof.
  intros k h l H Hh. exists (Kspec k). split. apply kernel_Fin.
  unfold kipw_value, k_value, k_rounds. rewrite c_check_ok by auto. cbn [bind].
  rewrite kipw_round_ok by (auto; lra). cbn [bind]. rewrite nmean_tabF by apply H. reflexivity.
Qed.

Theorem C45_kdr_value : forall k h l, c_accepted l -> 0 < h -> exists K : R -> R,
  (forall u, kernel_functions k (Fin u) = Fin (K u)) /\
  kdr_value k (Fin h) (c_model l) (c_rewards l) (c_logged l) (c_pscores l) (c_chosen l) = Ok (Fin (spec_kdr K h l)).
Proof.
  intros k h l H Hh. exists (Kspec k). split. apply kernel_Fin.
  unfold kdr_value, k_value, k_rounds. rewrite c_check_ok by auto. cbn [bind].
  rewrite kdr_round_ok by (auto; lra). cbn [bind]. rewrite nmean_tabF by apply H. do 2 f_equal.
  rewrite avg_plus. unfold spec_kdr. lra.
Qed.

(** With a zero reward model KernelizedDR is KernelizedIPW; with a perfect one it is the model's mean. *)
Theorem C45_kdr_zero_model : forall k h l, c_accepted l -> 0 < h ->
  (forall i, (i < cl_n l)%nat -> cl_q l i = 0) ->
  kdr_value k (Fin h) (c_model l) (c_rewards l) (c_logged l) (c_pscores l) (c_chosen l) =
  kipw_value k (Fin h) (c_rewards l) (c_logged l) (c_pscores l) (c_chosen l).
Proof.
  intros k h l H Hh Hq.
  destruct (C45_kdr_value k h l H Hh) as (K1 & E1 & ->).
  destruct (C45_kipw_value k h l H Hh) as (K2 & E2 & ->). do 2 f_equal.
  assert (EK : forall u, K1 u = K2 u) by (intros u; specialize (E1 u); rewrite E2 in E1; congruence).
  unfold spec_kdr, spec_kipw. rewrite (avg_ext _ (cl_q l) (fun _ => 0)) by auto.
  rewrite avg_const by apply H. rewrite Rplus_0_l. apply avg_ext. intros i Hi. rewrite Hq by auto.
  unfold c_weight. rewrite EK. f_equal. lra.
Qed.

Theorem C45_kdr_perfect_model : forall k h l, c_accepted l -> 0 < h ->
  (forall i, (i < cl_n l)%nat -> cl_q l i = cl_r l i) ->
  kdr_value k (Fin h) (c_model l) (c_rewards l) (c_logged l) (c_pscores l) (c_chosen l) =
  Ok (Fin (avg (cl_n l) (cl_q l))).
Proof.
  intros k h l H Hh Hq.
  destruct (C45_kdr_value k h l H Hh) as (K1 & E1 & ->). do 2 f_equal. unfold spec_kdr.
  rewrite (avg_ext _ (fun i => c_weight K1 h l i * (cl_r l i - cl_q l i)) (fun _ => 0)).
  - rewrite avg_const by apply H. lra.
  - intros i Hi. rewrite Hq by auto. lra.
Qed.

Lemma c_weight_nonneg k h l i : c_accepted l -> 0 < h -> (i < cl_n l)%nat -> 0 <= c_weight (Kspec k) h l i.
Proof.
  intros H Hh Hi. unfold c_weight. pose proof (ca_p l H i Hi). pose proof (K_nonneg k ((cl_e l i - cl_b l i) / h)).
  apply Rmult_le_pos; auto. apply Rlt_le, Rinv_0_lt_compat. nra.
Qed.

(** When some kernel weight is positive, the self-normalised estimate is a convex combination of the
    logged rewards; when all vanish it is NaN. *)
Theorem C45_ksnipw_value : forall k h l, c_accepted l -> 0 < h -> exists K : R -> R,
  (forall u, kernel_functions k (Fin u) = Fin (K u)) /\
  ((exists i, (i < cl_n l)%nat /\ K ((cl_e l i - cl_b l i) / h) <> 0) ->
   ksnipw_value k (Fin h) (c_rewards l) (c_logged l) (c_pscores l) (c_chosen l) = Ok (Fin (spec_ksnipw K h l))) /\
  ((forall i, (i < cl_n l)%nat -> K ((cl_e l i - cl_b l i) / h) = 0) ->
   ksnipw_value k (Fin h) (c_rewards l) (c_logged l) (c_pscores l) (c_chosen l) = Ok NaN).
Proof.
  intros k h l H Hh. exists (Kspec k). split. apply kernel_Fin.
  pose proof (INR_pos _ (ca_n l H)) as Hn. split.
  - intros (i & Hi & Hw).
    assert (Hs : 0 < sumn (cl_n l) (c_weight (Kspec k) h l)).
    { apply sumn_pos with i; auto. intros; apply c_weight_nonneg; auto.
      pose proof (ca_p l H i Hi). pose proof (K_nonneg k ((cl_e l i - cl_b l i) / h)).
      unfold c_weight. apply Rdiv_lt_0_compat. lra. nra. }
    unfold ksnipw_value, k_value, k_rounds. rewrite c_check_ok by auto. cbn [bind].
    rewrite ksnipw_round_ok by (auto; lra). cbn [bind]. rewrite nmean_tabF by apply H. do 2 f_equal.
    unfold spec_ksnipw, avg. rewrite sumn_div. field. split; lra.
  - intros Hz. unfold ksnipw_value, k_value, k_rounds. rewrite c_check_ok by auto. cbn [bind].
    unfold ksnipw_round. rewrite kernel_arg_ok by lra. cbn [bind]. rewrite map_kernel.
    unfold c_rewards. rewrite (bcast2_tabF nmul Rmult) by reflexivity. cbn [bind].
    unfold c_pscores. rewrite (bcast2_tabF ndiv Rdiv).
    2:{ intros i Hi. apply ndiv_Fin. pose proof (ca_p l H i Hi). lra. }
    cbn [bind]. rewrite (bcast2_tabF ndiv Rdiv).
    2:{ intros i Hi. apply ndiv_Fin. pose proof (ca_p l H i Hi). lra. }
    cbn [bind]. rewrite nmean_tabF by (apply H).
    rewrite (avg_ext _ _ (fun _ => 0)) by (intros i Hi; rewrite Hz by auto; unfold Rdiv; lra).
    rewrite avg_const by apply H. f_equal. apply nmean_NaN. unfold tabF. rewrite map_tab. apply In_tab.
    exists 0%nat. split. apply H. rewrite Hz by apply H.
    pose proof (ca_p l H 0%nat (ca_n l H)).
    replace (0 * cl_r l 0%nat / cl_p l 0%nat) with 0 by (field; lra). apply ndiv_0_0.
Qed.

Theorem C45_ksnipw_convex : forall k h l v, c_accepted l -> 0 < h ->
  ksnipw_value k (Fin h) (c_rewards l) (c_logged l) (c_pscores l) (c_chosen l) = Ok (Fin v) ->
  exists w : nat -> R, (forall i, (i < cl_n l)%nat -> 0 <= w i) /\ sumn (cl_n l) w = 1 /\
    v = sumn (cl_n l) (fun i => w i * cl_r l i).
Proof.
  intros k h l v H Hh Hv. destruct (C45_ksnipw_value k h l H Hh) as (K & EK & H1 & H2).
  destruct (classic_exists_lt (cl_n l) (fun i => K ((cl_e l i - cl_b l i) / h) <> 0)) as [He|Hne].
  - rewrite H1 in Hv by auto. injection Hv as <-.
    assert (EK' : forall u, K u = Kspec k u) by (intros u; specialize (EK u); rewrite kernel_Fin in EK; congruence).
    assert (Hnn : forall i, (i < cl_n l)%nat -> 0 <= c_weight K h l i).
    { intros i Hi. unfold c_weight. rewrite EK'. apply (c_weight_nonneg k h l i); auto. }
    destruct He as (i & Hi & Hw).
    assert (Hs : 0 < sumn (cl_n l) (c_weight K h l)).
    { apply sumn_pos with i; auto.
      pose proof (ca_p l H i Hi). pose proof (K_nonneg k ((cl_e l i - cl_b l i) / h)) as Hk. rewrite <- EK' in Hk.
      unfold c_weight. apply Rdiv_lt_0_compat. lra. nra. }
    exists (fun i => c_weight K h l i / sumn (cl_n l) (c_weight K h l)). split; [|split].
    + intros j Hj. apply Rmult_le_pos. auto. apply Rlt_le, Rinv_0_lt_compat; auto.
    + rewrite sumn_div. field. lra.
    + unfold spec_ksnipw. rewrite <- sumn_div. apply sumn_ext. intros j Hj. field. lra.
  - rewrite H2 in Hv. congruence. intros i Hi.
    destruct (Req_dec (K ((cl_e l i - cl_b l i) / h)) 0); auto. exfalso. apply Hne. eauto.
Qed.

Definition ex_clog : clog :=
  {| cl_n := 2; cl_r := fun i => match i with O => 1 | _ => 3 end;
     cl_b := fun i => match i with O => 0 | _ => 5 end;
     cl_e := fun i => match i with O => 1 | _ => 4 end;
     cl_p := fun i => match i with O => 1/2 | _ => 1/4 end;
     cl_q := fun i => 2 |}.

Lemma ex_clog_ok : c_accepted ex_clog.
Proof. constructor; simpl. lia. intros i Hi. idx i; lra. Qed.

Lemma ex_tri u : Rabs u = 1/2 -> K_triangular u = 1/2.
Proof. intros E. unfold K_triangular. rewrite E, Rmax_right; lra. Qed.

Example C45_example : c_accepted ex_clog /\ spec_kipw K_triangular 2 ex_clog = 7/4 /\
  spec_ksnipw K_triangular 2 ex_clog = 7/3 /\ spec_kdr K_triangular 2 ex_clog = 9/4.
Proof.
  split. apply ex_clog_ok. unfold spec_kipw, spec_ksnipw, spec_kdr, avg, c_weight. simpl.
  rewrite (ex_tri ((1 - 0) / 2)), (ex_tri ((4 - 5) / 2)); [repeat split; field| |].
  rewrite Rabs_left; lra. rewrite Rabs_right; lra.
Qed.

(** ** C46: degenerate bandwidths *)

(** Zero, infinite and NaN bandwidths pass the constructor; negative ones are rejected. *)
Theorem C46_accepted : forall h, kernelized_init h = Ok tt <-> ~ (nlt h (Fin 0) = true).
Proof.
  intros h. unfold kernelized_init, check_scalar. split.
  - intros E C. rewrite C in E. simpl in E. congruence.
  - intros C. destruct (nlt h (Fin 0)); [exfalso; auto|]. reflexivity.
Qed.

Theorem C46_zero_bandwidth : forall k l, c_accepted l ->
  kernelized_init (Fin 0) = Ok tt /\
  kipw_value k (Fin 0) (c_rewards l) (c_logged l) (c_pscores l) (c_chosen l) = Ok NaN /\
  ksnipw_value k (Fin 0) (c_rewards l) (c_logged l) (c_pscores l) (c_chosen l) = Ok NaN /\
  kdr_value k (Fin 0) (c_model l) (c_rewards l) (c_logged l) (c_pscores l) (c_chosen l) = Ok NaN.
Proof.
  intros k l H. split.
  { apply C46_accepted. simpl. replace (Rltb 0 0) with false by (symmetry; apply Rltb_false; lra). congruence. }
  unfold kipw_value, ksnipw_value, kdr_value, k_value, k_rounds. rewrite !c_check_ok by auto. cbn [bind].
  destruct (kipw_round_zero k l H) as (r1 & -> & I1).
  destruct (ksnipw_round_zero k l H) as (r2 & -> & I2).
  destruct (kdr_round_zero k l H) as (r3 & -> & I3). cbn [bind].
  rewrite !nmean_NaN by auto. auto.
Qed.

Theorem C46_nan_bandwidth : forall k l, c_accepted l ->
  kernelized_init NaN = Ok tt /\
  kipw_value k NaN (c_rewards l) (c_logged l) (c_pscores l) (c_chosen l) = Ok NaN.
Proof.
  intros k l H. split. apply C46_accepted. simpl. congruence.
  unfold kipw_value, k_value, k_rounds. rewrite !c_check_ok by auto. cbn [bind].
  unfold kipw_round. rewrite kernel_arg_gen. cbn [bind]. rewrite map_tab.
  unfold c_rewards, tabF. rewrite bcast2_tab. cbn [bind].
  unfold c_pscores, tabF. rewrite bcast2_tab. cbn [bind]. rewrite map_tab. f_equal.
  apply nmean_NaN. apply In_tab. exists 0%nat. split. apply H. apply ndiv_NaN_r.
Qed.

(** An infinite bandwidth silently estimates 0, whatever the log. *)
Theorem C46_infinite_bandwidth : forall k l, c_accepted l ->
  kernelized_init PInf = Ok tt /\
  kipw_value k PInf (c_rewards l) (c_logged l) (c_pscores l) (c_chosen l) = Ok (Fin 0).
Proof.
  intros k l H. split. apply C46_accepted. simpl. congruence.
  unfold kipw_value, k_value, k_rounds. rewrite !c_check_ok by auto. cbn [bind].
  unfold kipw_round. rewrite kernel_arg_gen. cbn [bind]. rewrite map_tab.
  unfold c_rewards, tabF. rewrite bcast2_tab. cbn [bind].
  unfold c_pscores, tabF. rewrite bcast2_tab. cbn [bind]. rewrite map_tab. f_equal.
  transitivity (nmean (tabF (cl_n l) (fun _ => 0))).
  - f_equal. unfold tabF. apply tab_ext. intros i Hi. pose proof (ca_p l H i Hi).
    change (ndiv (Fin (cl_e l i - cl_b l i)) PInf) with (Fin 0). rewrite kernel_Fin, nmul_Fin, ndiv_Fin by lra.
    reflexivity.
  - rewrite nmean_tabF by apply H. rewrite avg_const by apply H. reflexivity.
Qed.

Example C46_example : c_accepted ex_clog.
Proof. apply ex_clog_ok. Qed.

(** ** C87: KernelizedIPW is kernel smoothing in expectation *)

(** One round: the logged action is drawn from a density [p], positive on the bandwidth window around
    the evaluated action [e], and yields mean reward [m a].  The expected estimate is the integral of
    [m] against the kernel recentred at [e]; for rewards affine on the window it is [m e], i.e. the
    value of the evaluated action. *)
Theorem C87_smoothing : forall k h e (p m : R -> R) S, k <> Gaussian -> 0 < h ->
  (forall a, Rabs (a - e) <= h -> 0 < p a) ->
  forall K : R -> R, (forall u, kernel_functions k (Fin u) = Fin (K u)) ->
  is_RInt (fun u => K u * m (e - h * u)) (-1) 1 S ->
  exists v : R -> R,
    (forall a, 0 < p a ->
       kipw_value k (Fin h) [Fin (m a)] [Fin a] [Fin (p a)] [Fin e] = Ok (Fin (v a))) /\
    (forall a, h <= Rabs (a - e) -> v a = 0) /\
    is_RInt (fun a => p a * v a) (e - h) (e + h) S.
Proof.
  intros k h e p m S Hk Hh Hp K HK HS.
  assert (EK : forall u, K u = Kspec k u) by (intros u; specialize (HK u); rewrite kernel_Fin in HK; congruence).
  exists (fun a => K ((e - a) / h) / (h * p a) * m a). split; [|split].
  - intros a Ha.
    assert (Hl : c_accepted (one_round (m a) a e (p a))) by (constructor; simpl; auto).
    destruct (C45_kipw_value k h _ Hl Hh) as (K' & E' & Hv).
    etransitivity. exact Hv. do 2 f_equal. unfold spec_kipw, avg, c_weight. simpl.
    specialize (E' ((e - a) / h)). rewrite HK in E'. injection E' as ->. field.
    split; lra.
  - intros a Ha. rewrite EK, K_support; auto. unfold Rdiv. ring.
    unfold Rdiv. rewrite Rabs_mult, (Rabs_right (/ h)) by (left; apply Rinv_0_lt_compat; auto).
    rewrite Rabs_minus_sym. apply (Rmult_le_reg_r h); auto. rewrite Rmult_assoc, Rinv_l by lra. lra.
  - set (g := fun u => K u * m (e - h * u)).
    assert (Hc : is_RInt (fun a => scal (- / h) (g (- / h * a + e / h))) (e - h) (e + h) (opp S)).
    { apply (is_RInt_comp_lin (V := R_NormedModule) g).
      replace (- / h * (e - h) + e / h) with 1 by (field; lra).
      replace (- / h * (e + h) + e / h) with (-1) by (field; lra).
      apply (is_RInt_swap (V := R_NormedModule)). exact HS. }
    apply (is_RInt_eq _ _ _ (scal (-1) (opp S))).
    { change (-1 * - S = S). ring. }
    apply (is_RInt_ext (V := R_NormedModule) (fun a => scal (-1) (scal (- / h) (g (- / h * a + e / h))))).
    2:{ apply (is_RInt_scal (V := R_NormedModule)). exact Hc. }
    intros a Ha. rewrite Rmin_left, Rmax_right in Ha by lra.
    change (-1 * (- / h * (K (- / h * a + e / h) * m (e - h * (- / h * a + e / h)))) =
            p a * (K ((e - a) / h) / (h * p a) * m a)).
    replace (- / h * a + e / h) with ((e - a) / h) by (field; lra).
    replace (e - h * ((e - a) / h)) with a by (field; lra).
    assert (0 < p a) by (apply Hp, Rabs_le; lra). field. split; lra.
Qed.

Theorem C87_affine_unbiased : forall k h e (p : R -> R) c0 c1, k <> Gaussian -> 0 < h ->
  (forall a, Rabs (a - e) <= h -> 0 < p a) ->
  exists v : R -> R,
    (forall a, 0 < p a ->
       kipw_value k (Fin h) [Fin (c0 + c1 * a)] [Fin a] [Fin (p a)] [Fin e] = Ok (Fin (v a))) /\
    (forall a, h <= Rabs (a - e) -> v a = 0) /\
    is_RInt (fun a => p a * v a) (e - h) (e + h) (c0 + c1 * e).
Proof.
  intros k h e p c0 c1 Hk Hh Hp.
  apply (C87_smoothing k h e p (fun a => c0 + c1 * a) (c0 + c1 * e) Hk Hh Hp (Kspec k) (kernel_Fin k)).
  apply (is_RInt_ext (V := R_NormedModule) (fun u => (c0 + c1 * e + - c1 * h * u) * Kspec k u)).
  - intros u _. change ((c0 + c1 * e + - c1 * h * u) * Kspec k u = Kspec k u * (c0 + c1 * (e - h * u))). ring.
  - apply int_compact; auto.
Qed.

(** A uniform logging density on [0,10] with reward 2a, evaluated at a = 4. *)
Example C87_example : exists v : R -> R,
  is_RInt (fun a => (fun _ => 1/10) a * v a) (4 - 1) (4 + 1) (0 + 2 * 4) /\
  kipw_value Triangular (Fin 1) [Fin (0 + 2 * 4)] [Fin 4] [Fin (1/10)] [Fin 4] = Ok (Fin (v 4)).
Proof.
  destruct (C87_affine_unbiased Triangular 1 4 (fun _ => 1/10) 0 2) as (v & H1 & _ & H2).
  congruence. lra. intros; lra. exists v. split; auto. apply H1. lra.
Qed.

(** ** C88: exact acceptance conditions of the continuous validators *)

(** [reward], logged actions, evaluation actions, densities (and predictions) of one common length, no
    density that compares [<= 0]. *)
Definition well_shaped (a_e a_b reward pscore : arr1) (q_hat : option arr1) : Prop :=
  length a_b = length a_e /\ length reward = length a_e /\ length pscore = length a_e /\
  (forall q, q_hat = Some q -> length q = length a_e) /\
  (forall x, In x pscore -> nle x (Fin 0) = false).

Theorem C88_ope_inputs_exact : forall a_e a_b reward pscore q_hat,
  (well_shaped a_e a_b reward pscore q_hat ->
   check_continuous_ope_inputs a_e (Some a_b) (Some reward) (Some pscore) q_hat = Ok tt) /\
  (~ well_shaped a_e a_b reward pscore q_hat ->
   check_continuous_ope_inputs a_e (Some a_b) (Some reward) (Some pscore) q_hat = Err ValueError).
Proof.
  intros. unfold check_continuous_ope_inputs.
  assert (Hany : any_le0 pscore = false <-> forall x, In x pscore -> nle x (Fin 0) = false).
  { unfold any_le0. split.
    - intros E x Hx. destruct (nle x (Fin 0)) eqn:El; auto.
      assert (existsb (fun x => nle x (Fin 0)) pscore = true) by (apply existsb_exists; eauto). congruence.
    - intros Hx. destruct (existsb _ pscore) eqn:El; auto. apply existsb_exists in El as (x & Hi & Hn).
      rewrite Hx in Hn; congruence. }
  split.
  - intros (H1 & H2 & H3 & H4 & H5). apply Hany in H5.
    rewrite H1, H2, H3, H5, !Nat.eqb_refl. destruct q_hat as [q|]; [rewrite (H4 q), Nat.eqb_refl by auto|]; reflexivity.
  - intros Hn. destruct q_hat as [q|].
    + destruct (Nat.eqb (length q) (length a_e)) eqn:E1; [|reflexivity].
      destruct (Nat.eqb (length a_b) (length reward)) eqn:E2; [|reflexivity].
      destruct (Nat.eqb (length a_b) (length a_e)) eqn:E3; [|reflexivity].
      destruct (Nat.eqb (length reward) (length pscore)) eqn:E4; [|reflexivity].
      destruct (any_le0 pscore) eqn:E5; [reflexivity|].
      apply Nat.eqb_eq in E1, E2, E3, E4. exfalso. apply Hn. repeat split; try lia.
      intros q' Eq; injection Eq as <-; auto. apply Hany; auto.
    + destruct (Nat.eqb (length a_b) (length reward)) eqn:E2; [|reflexivity].
      destruct (Nat.eqb (length a_b) (length a_e)) eqn:E3; [|reflexivity].
      destruct (Nat.eqb (length reward) (length pscore)) eqn:E4; [|reflexivity].
      destruct (any_le0 pscore) eqn:E5; [reflexivity|].
      apply Nat.eqb_eq in E2, E3, E4. exfalso. apply Hn. repeat split; try lia. congruence. apply Hany; auto.
Qed.

(** Logged actions without rewards (or the converse) are rejected. *)
Theorem C88_needs_both : forall a_e x pscore q_hat,
  check_continuous_ope_inputs a_e (Some x) None pscore q_hat = Err ValueError /\
  check_continuous_ope_inputs a_e None (Some x) pscore q_hat = Err ValueError.
Proof.
  intros. unfold check_continuous_ope_inputs.
  destruct q_hat as [q|]; [destruct (Nat.eqb _ _)|]; split; reflexivity.
Qed.

(** The same for the feedback validator used by the continuous policy learner. *)
Theorem C88_feedback_exact : forall n action reward pscore,
  (length action = n /\ length reward = n /\ length pscore = n /\
     (forall x, In x pscore -> nle x (Fin 0) = false) ->
   check_continuous_bandit_feedback_inputs n action reward None (Some pscore) = Ok tt) /\
  (~ (length action = n /\ length reward = n /\ length pscore = n /\
     (forall x, In x pscore -> nle x (Fin 0) = false)) ->
   check_continuous_bandit_feedback_inputs n action reward None (Some pscore) = Err ValueError).
Proof.
  intros. unfold check_continuous_bandit_feedback_inputs.
  assert (Hany : any_le0 pscore = false <-> forall x, In x pscore -> nle x (Fin 0) = false).
  { unfold any_le0. split.
    - intros E x Hx. destruct (nle x (Fin 0)) eqn:El; auto.
      assert (existsb (fun x => nle x (Fin 0)) pscore = true) by (apply existsb_exists; eauto). congruence.
    - intros Hx. destruct (existsb _ pscore) eqn:El; auto. apply existsb_exists in El as (x & Hi & Hn).
      rewrite Hx in Hn; congruence. }
  split.
  - intros (H1 & H2 & H3 & H5). apply Hany in H5. rewrite H1, H2, H3, H5, !Nat.eqb_refl. reflexivity.
  - intros Hn. cbn [bind].
    destruct (Nat.eqb n (length action)) eqn:E1; [|reflexivity].
    destruct (Nat.eqb (length action) (length reward)) eqn:E2; [|reflexivity].
    destruct (Nat.eqb (length reward) (length pscore)) eqn:E4; [|reflexivity].
    destruct (any_le0 pscore) eqn:E5; [reflexivity|].
    apply Nat.eqb_eq in E1, E2, E4. exfalso. apply Hn. repeat split; try lia. apply Hany; auto.
Qed.

Example C88_example : well_shaped [Fin 1; Fin 4] [Fin 0; Fin 5] [Fin 1; Fin 3] [Fin (1/2); NaN] None /\
  ~ well_shaped [Fin 1; Fin 4] [Fin 0] [Fin 1; Fin 3] [Fin (1/2); NaN] None.
Proof.
  split.
  - repeat split; auto; try congruence. intros x [<-|[<-|[]]]; simpl; auto. apply Rleb_false; lra.
  - intros (H & _). simpl in H. congruence.
Qed.

(** ** C86, continued: continuous intervals resample the rounds behind the value *)
Theorem C86_continuous_interval_resamples_rounds : forall round q_hat reward a_b pscore a_e,
  resamples (k_value round q_hat reward a_b pscore a_e)
            (k_interval round q_hat reward a_b pscore a_e).
Proof. intros. unfold k_value, k_interval. resamp. Qed.

Print Assumptions C44_kernels.
Print Assumptions C44_shape.
Print Assumptions C44_compact.
Print Assumptions C44_gaussian.
Print Assumptions C44_non_finite.
Print Assumptions C45_kipw_value.
Print Assumptions C45_kdr_value.
Print Assumptions C45_kdr_zero_model.
Print Assumptions C45_kdr_perfect_model.
Print Assumptions C45_ksnipw_value.
Print Assumptions C45_ksnipw_convex.
Print Assumptions C46_accepted.
Print Assumptions C46_zero_bandwidth.
Print Assumptions C46_nan_bandwidth.
Print Assumptions C46_infinite_bandwidth.
Print Assumptions C87_smoothing.
Print Assumptions C87_affine_unbiased.
Print Assumptions C86_continuous_interval_resamples_rounds.
Print Assumptions C88_ope_inputs_exact.
Print Assumptions C88_needs_both.
Print Assumptions C88_feedback_exact.
