(** * L_ContInt: integrals of the kernels. *)

From Coq Require Import Reals List ZArith Lia Lra.
From Coquelicot Require Import Coquelicot.
From Verif Require Import Num S_Base M_Cont S_Cont L_Cont.
Open Scope R_scope.

Ltac dercont := intros x0 Hx0; apply (ex_derive_continuous (V := R_NormedModule)); auto_derive; auto.

Lemma is_RInt_eq (f : R -> R) a b (l l' : R) : l = l' -> is_RInt f a b l -> is_RInt f a b l'.
Proof. intros ->. auto. Qed.

Lemma int_triangular c0 c1 : is_RInt (fun u => (c0 + c1 * u) * K_triangular u) (-1) 1 c0.
Proof.
  apply (is_RInt_eq _ _ _ (plus (c0 / 2 - c1 / 6) (c0 / 2 + c1 / 6))). unfold plus; simpl; lra.
  apply (is_RInt_Chasles (V := R_NormedModule) _ _ 0).
  - apply (is_RInt_ext (V := R_NormedModule) (fun u => (c0 + c1 * u) * (1 + u))).
    + intros u Hu. rewrite Rmin_left, Rmax_right in Hu by lra. unfold K_triangular.
      rewrite Rabs_left, Rmax_right by lra. f_equal. lra.
    + replace (c0 / 2 - c1 / 6) with
        (minus ((fun u => c0 * u + (c0 + c1) * u^2 / 2 + c1 * u^3 / 3) 0) ((fun u => c0 * u + (c0 + c1) * u^2 / 2 + c1 * u^3 / 3) (-1)))
        by (unfold minus, plus, opp; simpl; field).
      apply (is_RInt_derive (V := R_CompleteNormedModule) (fun u => c0 * u + (c0 + c1) * u^2 / 2 + c1 * u^3 / 3)).
      * intros u _. auto_derive; auto. field.
      * dercont.
  - apply (is_RInt_ext (V := R_NormedModule) (fun u => (c0 + c1 * u) * (1 - u))).
    + intros u Hu. rewrite Rmin_left, Rmax_right in Hu by lra. unfold K_triangular.
      rewrite Rabs_right, Rmax_right by lra. reflexivity.
    + replace (c0 / 2 + c1 / 6) with
        (minus ((fun u => c0 * u + (c1 - c0) * u^2 / 2 - c1 * u^3 / 3) 1) ((fun u => c0 * u + (c1 - c0) * u^2 / 2 - c1 * u^3 / 3) 0))
        by (unfold minus, plus, opp; simpl; field).
      apply (is_RInt_derive (V := R_CompleteNormedModule) (fun u => c0 * u + (c1 - c0) * u^2 / 2 - c1 * u^3 / 3)).
      * intros u _. auto_derive; auto. field.
      * dercont.
Qed.

Lemma int_epanechnikov c0 c1 : is_RInt (fun u => (c0 + c1 * u) * K_epanechnikov u) (-1) 1 c0.
Proof.
  apply (is_RInt_ext (V := R_NormedModule) (fun u => (c0 + c1 * u) * (3 / 4 * (1 - u * u)))).
  - intros u Hu. rewrite Rmin_left, Rmax_right in Hu by lra. unfold K_epanechnikov.
    destruct (Rle_dec _ _) as [H|H]; auto. exfalso. apply H. apply Rabs_le. lra.
  - set (A := fun u => 3 / 4 * (c0 * u + c1 * u^2 / 2 - c0 * u^3 / 3 - c1 * u^4 / 4)).
    apply (is_RInt_eq _ _ _ (minus (A 1) (A (-1)))). unfold A, minus, plus, opp; simpl; field.
    apply (is_RInt_derive (V := R_CompleteNormedModule) A).
    + intros u _. unfold A. auto_derive; auto. field.
    + dercont.
Qed.

Lemma int_cosine c0 c1 : is_RInt (fun u => (c0 + c1 * u) * K_cosine u) (-1) 1 c0.
Proof.
  pose proof PI_RGT_0.
  apply (is_RInt_ext (V := R_NormedModule) (fun u => (c0 + c1 * u) * (PI / 4 * cos (PI / 2 * u)))).
  - intros u Hu. rewrite Rmin_left, Rmax_right in Hu by lra. unfold K_cosine.
    destruct (Rle_dec _ _) as [H0|H0]; auto. exfalso. apply H0. apply Rabs_le. lra.
  - set (A := fun u => (c0 + c1 * u) / 2 * sin (PI / 2 * u) + c1 / PI * cos (PI / 2 * u)).
    apply (is_RInt_eq _ _ _ (minus (A 1) (A (-1)))).
    { unfold A, minus, plus, opp; simpl. replace (PI / 2 * -1) with (- (PI / 2)) by lra.
        rewrite !Rmult_1_r, sin_neg, cos_neg, sin_PI2, cos_PI2. field. lra. }
    apply (is_RInt_derive (V := R_CompleteNormedModule) A).
    + intros u _. unfold A. auto_derive; auto. field. lra.
    + dercont.
Qed.

Lemma int_compact k c0 c1 : k <> Gaussian ->
  is_RInt (fun u => (c0 + c1 * u) * Kspec k u) (-1) 1 c0.
Proof.
  intros H. destruct k; simpl; try congruence.
  apply int_epanechnikov. apply int_triangular. apply int_cosine.
Qed.

(** ** The Gaussian integral *)

Definition G (x : R) : R := RInt (fun t => exp (- t^2)) 0 x.
Definition Hint (x t : R) : R := exp (- x^2 * (1 + t^2)) / (1 + t^2).
Definition H (x : R) : R := RInt (Hint x) 0 1.

Lemma exp_mono x y : x <= y -> exp x <= exp y.
Proof. intros [Hl|E]. apply Rlt_le, exp_increasing; auto. rewrite E; lra. Qed.

Lemma one_sq t : 0 < 1 + t^2.
Proof. nra. Qed.
Lemma one_sq' t : 1 + t * (t * 1) <> 0.
Proof. nra. Qed.

Lemma exp_sq_cont : forall x, continuous (fun t => exp (- t^2)) x.
Proof. intros x. apply (ex_derive_continuous (V := R_NormedModule)). auto_derive; auto. Qed.

Lemma G_derive x : is_derive G x (exp (- x^2)).
Proof.
  unfold G. apply (is_derive_RInt (V := R_NormedModule) (fun t => exp (- t ^ 2)) (fun x => RInt (fun t => exp (- t^2)) 0 x) 0 x).
  - exists (mkposreal 1 Rlt_0_1). intros y _. apply (RInt_correct (V := R_CompleteNormedModule)).
    apply (ex_RInt_continuous (V := R_CompleteNormedModule)). intros z _. apply exp_sq_cont.
  - apply exp_sq_cont.
Qed.

Lemma Hint_cont x t : continuous (Hint x) t.
Proof.
  apply (ex_derive_continuous (V := R_NormedModule)). unfold Hint. auto_derive. apply one_sq'.
Qed.

Lemma Hint_derive x t : is_derive (fun u => Hint u t) x (- 2 * x * exp (- x^2 * (1 + t^2))).
Proof.
  unfold Hint. auto_derive; auto. simpl. field. nra.
Qed.

Lemma H_derive x : is_derive H x (RInt (fun t => - 2 * x * exp (- x^2 * (1 + t^2))) 0 1).
Proof.
  unfold H.
  rewrite <- (RInt_ext (fun t => Derive (fun u => Hint u t) x)).
  2:{ intros t _. apply is_derive_unique, Hint_derive. }
  apply (is_derive_RInt_param Hint 0 1 x).
  - apply filter_forall. intros y t _. eexists. apply Hint_derive.
  - intros t _. apply continuity_2d_pt_ext with (f := fun u v => - 2 * u * exp (- u^2 * (1 + v^2))).
    + intros u v. symmetry. apply is_derive_unique, Hint_derive.
    + apply continuity_2d_pt_mult.
      * apply continuity_2d_pt_mult. apply continuity_2d_pt_const. apply continuity_2d_pt_id1.
      * apply (continuity_1d_2d_pt_comp exp (fun u v => - u^2 * (1 + v^2))).
        -- apply derivable_continuous_pt, derivable_pt_exp.
        -- apply continuity_2d_pt_mult.
           ++ apply continuity_2d_pt_ext with (f := fun u v => - (u * u)). intros; ring.
              apply continuity_2d_pt_opp, continuity_2d_pt_mult; apply continuity_2d_pt_id1.
           ++ apply continuity_2d_pt_ext with (f := fun u v => 1 + (v * v)). intros; ring.
              apply continuity_2d_pt_plus. apply continuity_2d_pt_const. apply continuity_2d_pt_mult; apply continuity_2d_pt_id2.
  - apply filter_forall. intros y. apply (ex_RInt_continuous (V := R_CompleteNormedModule)). intros z _. apply Hint_cont.
Qed.

Lemma H_derive' x : is_derive H x (- 2 * exp (- x^2) * G x).
Proof.
  replace (- 2 * exp (- x ^ 2) * G x) with (RInt (fun t => - 2 * x * exp (- x^2 * (1 + t^2))) 0 1).
  apply H_derive.
  assert (E : is_RInt (fun t => scal x (exp (- (x * t + 0)^2))) 0 1 (G x)).
  { apply (is_RInt_comp_lin (V := R_NormedModule) (fun t => exp (- t^2)) x 0 0 1).
    replace (x * 0 + 0) with 0 by lra. replace (x * 1 + 0) with x by lra.
    apply (RInt_correct (V := R_CompleteNormedModule)). apply (ex_RInt_continuous (V := R_CompleteNormedModule)). intros z _. apply exp_sq_cont. }
  apply is_RInt_unique.
  apply (is_RInt_ext (V := R_NormedModule) (fun t => scal (- 2 * exp (- x^2)) (scal x (exp (- (x * t + 0)^2))))).
  - intros t _. unfold scal; simpl; unfold mult; simpl.
    replace (- (x * (x * 1)) * (1 + t * (t * 1))) with (- (x * (x * 1)) + - ((x * t + 0) * ((x * t + 0) * 1))) by ring.
    rewrite exp_plus. ring.
  - apply (is_RInt_scal (V := R_NormedModule)). exact E.
Qed.

Lemma G2H_const x : G x ^ 2 + H x = PI / 4.
Proof.
  assert (D : forall y, is_derive (fun y => G y ^ 2 + H y) y 0).
  { intros y. replace 0 with (2 * G y * exp (- y^2) + - 2 * exp (- y^2) * G y) by ring.
    apply (is_derive_plus (V := R_NormedModule)); [|apply H_derive'].
    replace (2 * G y * exp (- y ^ 2)) with (INR 2 * exp (- y^2) * G y ^ pred 2) by (simpl; ring).
    apply is_derive_pow. apply G_derive. }
  assert (E : G x ^ 2 + H x = G 0 ^ 2 + H 0).
  { destruct (MVT_gen (fun y => G y ^ 2 + H y) 0 x (fun _ => 0)) as (c & _ & Hc).
    - intros y _. apply D.
    - intros y _. apply continuity_pt_filterlim. apply (ex_derive_continuous (V := R_NormedModule) (fun y => G y ^ 2 + H y)). exists 0. apply D.
    - simpl in Hc. lra. }
  rewrite E. unfold G. rewrite RInt_point. unfold H.
  replace (RInt (Hint 0) 0 1) with (PI / 4). unfold zero; simpl. lra.
  symmetry. apply is_RInt_unique.
  apply (is_RInt_ext (V := R_NormedModule) (fun t => / (1 + t^2))).
  - intros t _. change (/ (1 + t^2) = Hint 0 t). unfold Hint. replace (- 0 ^ 2 * (1 + t ^ 2)) with 0 by ring. rewrite exp_0. unfold Rdiv. ring.
  - replace (PI / 4) with (minus (atan 1) (atan 0)).
    apply (is_RInt_derive (V := R_CompleteNormedModule) atan).
    + intros t _. auto_derive; auto. simpl. field. nra.
    + intros t _. apply (ex_derive_continuous (V := R_NormedModule)). auto_derive. apply one_sq'.
    + rewrite atan_0, atan_1. unfold minus, plus, opp; simpl. lra.
Qed.

Lemma H_bounds x : 0 <= H x <= exp (- x^2).
Proof.
  assert (EI : ex_RInt (Hint x) 0 1) by (apply (ex_RInt_continuous (V := R_CompleteNormedModule)); intros z _; apply Hint_cont).
  split.
  - unfold H. apply RInt_ge_0; auto. lra. intros t _. unfold Hint. pose proof (one_sq t).
    apply Rlt_le, Rdiv_lt_0_compat; auto. apply exp_pos.
  - replace (exp (- x^2)) with (RInt (fun _ => exp (- x^2)) 0 1).
    2:{ rewrite RInt_const. unfold scal; simpl; unfold mult; simpl. ring. }
    unfold H. apply RInt_le; auto. lra. apply ex_RInt_const.
    intros t _. unfold Hint. pose proof (one_sq t).
    apply Rle_div_l; auto.
    assert (exp (- x^2 * (1 + t^2)) <= exp (- x^2)).
    { apply exp_mono. nra. }
    pose proof (exp_pos (- x^2)). nra.
Qed.

Lemma G_int a b : is_RInt (fun t => exp (- t^2)) a b (G b - G a).
Proof.
  apply (is_RInt_derive (V := R_CompleteNormedModule) G).
  - intros x _. apply G_derive.
  - intros x _. apply exp_sq_cont.
Qed.

Lemma G_nonneg x : 0 <= x -> 0 <= G x.
Proof.
  intros Hx. unfold G. apply RInt_ge_0; auto.
  - apply (ex_RInt_continuous (V := R_CompleteNormedModule)). intros z _. apply exp_sq_cont.
  - intros t _. apply Rlt_le, exp_pos.
Qed.

Lemma G_odd x : G (- x) = - G x.
Proof.
  unfold G.
  assert (E : is_RInt (fun t => scal (-1) (exp (- (-1 * t + 0)^2))) 0 x (RInt (fun t => exp (- t^2)) 0 (- x))).
  { apply (is_RInt_comp_lin (V := R_NormedModule) (fun t => exp (- t^2)) (-1) 0 0 x).
    replace (-1 * 0 + 0) with 0 by lra. replace (-1 * x + 0) with (- x) by lra.
    apply (RInt_correct (V := R_CompleteNormedModule)).
    apply (ex_RInt_continuous (V := R_CompleteNormedModule)). intros z _. apply exp_sq_cont. }
  assert (E2 : is_RInt (fun t => scal (-1) (exp (- t^2))) 0 x (scal (-1) (G x))).
  { apply (is_RInt_scal (V := R_NormedModule)). apply (is_RInt_eq _ _ _ (G x - G 0)).
    unfold G at 2. rewrite RInt_point. unfold zero; simpl. lra. apply G_int. }
  apply (is_RInt_unique (V := R_CompleteNormedModule)) in E2. apply (is_RInt_unique (V := R_CompleteNormedModule)) in E.
  rewrite <- E. transitivity (RInt (fun t => scal (-1) (exp (- t^2))) 0 x).
  - apply RInt_ext. intros t _. change (-1 * exp (- (-1 * t + 0)^2) = -1 * exp (- t^2)). do 2 f_equal. ring.
  - rewrite E2. change (-1 * G x = - G x). ring.
Qed.

Lemma G_tail x : 0 <= x -> 0 <= sqrt PI / 2 - G x <= 2 / sqrt PI * exp (- x^2).
Proof.
  intros Hx. pose proof (G2H_const x) as E. pose proof (H_bounds x) as B. pose proof (G_nonneg x Hx) as P.
  pose proof PI_RGT_0 as Hpi. pose proof (sqrt_lt_R0 PI Hpi) as Hs. pose proof (sqrt_sqrt PI (Rlt_le _ _ Hpi)) as Q.
  set (s := sqrt PI) in *. assert (Hsq : (s / 2)^2 = PI / 4) by nra.
  assert (F : (s / 2 - G x) * (s / 2 + G x) = H x) by nra.
  assert (G x <= s / 2) by nra. split. lra.
  apply (Rmult_le_reg_r (s / 2)). lra.
  replace (2 / s * exp (- x^2) * (s / 2)) with (exp (- x^2)) by (field; lra). nra.
Qed.

Lemma gaussian_int a b : is_RInt K_gaussian a b ((G (b / sqrt 2) - G (a / sqrt 2)) / sqrt PI).
Proof.
  pose proof PI_RGT_0 as Hpi. pose proof (sqrt_lt_R0 PI Hpi) as Hs. pose proof (sqrt_lt_R0 2 Rlt_0_2) as H2.
  pose proof (is_RInt_comp_lin (V := R_NormedModule) (fun t => exp (- t^2)) (/ sqrt 2) 0 a b (G (b / sqrt 2) - G (a / sqrt 2))) as C.
  assert (is_RInt (fun t => scal (/ sqrt PI) (scal (/ sqrt 2) (exp (- (/ sqrt 2 * t + 0)^2)))) a b
           (scal (/ sqrt PI) (G (b / sqrt 2) - G (a / sqrt 2)))) as E.
  { apply (is_RInt_scal (V := R_NormedModule)). apply C.
    replace (/ sqrt 2 * a + 0) with (a / sqrt 2) by (unfold Rdiv; ring).
    replace (/ sqrt 2 * b + 0) with (b / sqrt 2) by (unfold Rdiv; ring). apply G_int. }
  apply (is_RInt_eq _ _ _ (scal (/ sqrt PI) (G (b / sqrt 2) - G (a / sqrt 2)))).
  { unfold scal; simpl; unfold mult; simpl. unfold Rdiv. ring. }
  revert E. apply (is_RInt_ext (V := R_NormedModule)). intros t _.
  unfold scal; simpl; unfold mult; simpl. unfold K_gaussian. rewrite sqrt_mult by lra.
  replace (- ((/ sqrt 2 * t + 0) * ((/ sqrt 2 * t + 0) * 1))) with (- (t * t) / 2).
  - field. split; lra.
  - pose proof (sqrt_sqrt 2). rewrite <- (sqrt_sqrt 2) at 1 by lra. field. lra.
Qed.

Lemma gaussian_total : forall eps, 0 < eps -> exists M, 0 < M /\ forall a b, a <= - M -> M <= b ->
  exists I, is_RInt K_gaussian a b I /\ 1 - eps < I <= 1.
Proof.
  intros eps He. exists (2 / eps + 2).
  assert (Hpos : 0 < 2 / eps) by (apply Rdiv_lt_0_compat; lra).
  split. lra. intros a b Ha Hb. eexists. split. apply gaussian_int.
  pose proof PI_RGT_0 as Hpi. pose proof (sqrt_lt_R0 PI Hpi) as Hs. pose proof (sqrt_sqrt PI (Rlt_le _ _ Hpi)) as Q.
  pose proof (sqrt_lt_R0 2 Rlt_0_2) as H2. pose proof (sqrt_sqrt 2 (Rlt_le _ _ Rlt_0_2)) as Q2.
  assert (T : forall x, 2 / eps + 2 <= x -> 0 <= sqrt PI / 2 - G (x / sqrt 2) < sqrt PI * eps / 2).
  { intros x Hx. destruct (G_tail (x / sqrt 2)) as [T1 T2].
    { apply Rlt_le, Rdiv_lt_0_compat; lra. }
    split; auto. eapply Rle_lt_trans. apply T2.
    replace ((x / sqrt 2)^2) with (x * x / 2).
    2:{ transitivity (x * x / (sqrt 2 * sqrt 2)). rewrite Q2; reflexivity. field. lra. }
    assert (E1 : exp (- (x * x / 2)) * (x * x / 2) < 1).
    { rewrite exp_Ropp. pose proof (exp_pos (x * x / 2)). apply (Rmult_lt_reg_l (exp (x * x / 2))); auto.
      rewrite <- Rmult_assoc, Rinv_r by lra. pose proof (exp_ineq1 (x * x / 2)). nra. }
    assert (E2 : 4 / eps <= x * x / 2).
    { assert (8 / eps <= (2 / eps + 2) * (2 / eps + 2)).
      { replace (8 / eps) with (4 * (2 / eps)) by (field; lra). nra. }
      replace (4 / eps) with (8 / eps / 2) by (field; lra). nra. }
    assert (E3 : exp (- (x * x / 2)) * (4 / eps) < 1).
    { pose proof (exp_pos (- (x * x / 2))). nra. }
    assert (E4 : exp (- (x * x / 2)) < eps / 4).
    { apply (Rmult_lt_reg_r (4 / eps)). apply Rdiv_lt_0_compat; lra.
      replace (eps / 4 * (4 / eps)) with 1 by (field; lra). auto. }
    apply (Rmult_lt_reg_l (sqrt PI)); auto.
    replace (sqrt PI * (2 / sqrt PI * exp (- (x * x / 2)))) with (2 * exp (- (x * x / 2))) by (field; lra).
    replace (sqrt PI * (sqrt PI * eps / 2)) with (PI * eps / 2) by (rewrite <- Q at 1; field).
    pose proof PI2_3_2. nra. }
  pose proof (T b Hb) as Tb.
  assert (Ta : 0 <= sqrt PI / 2 + G (a / sqrt 2) < sqrt PI * eps / 2).
  { replace (G (a / sqrt 2)) with (- G (- a / sqrt 2)).
    - pose proof (T (- a) ltac:(lra)). lra.
    - rewrite <- G_odd. f_equal. field. lra. }
  split.
  - apply (Rmult_lt_reg_r (sqrt PI)); auto.
    replace ((G (b / sqrt 2) - G (a / sqrt 2)) / sqrt PI * sqrt PI) with (G (b / sqrt 2) - G (a / sqrt 2)) by (field; lra).
    nra.
  - apply (Rmult_le_reg_r (sqrt PI)); auto.
    replace ((G (b / sqrt 2) - G (a / sqrt 2)) / sqrt PI * sqrt PI) with (G (b / sqrt 2) - G (a / sqrt 2)) by (field; lra).
    nra.
Qed.
