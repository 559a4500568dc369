(** * L_Gumbel: the Gumbel-max trick. *)

From Coq Require Import Reals List ZArith Bool Lia Lra.
From Coquelicot Require Import Coquelicot.
From Verif Require Import Num S_Base L_Base S_Offline.
Import ListNotations.
Open Scope R_scope.

Fixpoint sum_others (K a : nat) (f : nat -> R) : R :=
  match K with
  | O => 0
  | S m => sum_others m a f + (if Nat.eq_dec m a then 0 else f m)
  end.

Lemma sum_others_sumn K a f : (a < K)%nat -> sumn K f = f a + sum_others K a f.
Proof.
  induction K; intros H; [lia|]. simpl. destruct (Nat.eq_dec K a) as [->|Hne].
  - assert (E : forall m, (m <= a)%nat -> sumn m f = sum_others m a f).
    { induction m; intros Hm; auto. simpl. rewrite IHm by lia. destruct (Nat.eq_dec m a); [lia|]. reflexivity. }
    rewrite E by lia. ring.
  - rewrite IHK by lia. ring.
Qed.

Lemma prod_others_exp K a c x : prod_others K a (fun b => exp (- (c b * x))) = exp (- (sum_others K a c * x)).
Proof.
  induction K; simpl. rewrite Rmult_0_l, Ropp_0, exp_0. reflexivity.
  rewrite IHK. destruct (Nat.eq_dec K a).
  - rewrite Rmult_1_r, Rplus_0_r. reflexivity.
  - rewrite <- exp_plus. f_equal. ring.
Qed.

Lemma prod_others_ext K a f g : (forall b, (b < K)%nat -> f b = g b) -> prod_others K a f = prod_others K a g.
Proof. induction K; simpl; intros H; auto. rewrite IHK, H by auto. reflexivity. Qed.

Section Trick.
  Variables (K a : nat) (s : nat -> R).
  Hypothesis Ha : (a < K)%nat.
  Let C := sumn K (fun b => exp (s b - s a)).

  Lemma C_pos : 0 < C.
  Proof. apply sumn_allpos. lia. intros; apply exp_pos. Qed.

  Lemma integrand g :
    gumbel_pdf g * prod_others K a (fun b => gumbel_cdf (s a + g - s b)) = exp (- g) * exp (- (C * exp (- g))).
  Proof.
    unfold gumbel_pdf.
    rewrite (prod_others_ext K a _ (fun b => exp (- (exp (s b - s a) * exp (- g))))).
    2:{ intros b _. unfold gumbel_cdf. do 2 f_equal. rewrite <- exp_plus. f_equal. ring. }
    rewrite prod_others_exp, Rmult_assoc, <- exp_plus. do 2 f_equal.
    unfold C. rewrite (sum_others_sumn K a) by auto. rewrite Rminus_diag_eq by auto. rewrite exp_0. ring.
  Qed.

  Let F (g : R) := exp (- (C * exp (- g))) / C.

  Lemma F_derive g : is_derive F g (exp (- g) * exp (- (C * exp (- g)))).
  Proof.
    pose proof C_pos. unfold F. auto_derive; auto. field. lra.
  Qed.

  Lemma F_cont g : continuous (fun g => exp (- g) * exp (- (C * exp (- g)))) g.
  Proof. apply (ex_derive_continuous (V := R_NormedModule)). auto_derive. auto. Qed.

  Lemma F_at_p : is_lim F p_infty (/ C).
  Proof.
    pose proof C_pos. unfold F.
    replace (Finite (/ C)) with (Rbar_mult (Finite 1) (Finite (/ C))) by (simpl; f_equal; ring).
    apply (is_lim_scal_r (fun g => exp (- (C * exp (- g)))) (/ C) p_infty 1).
    replace (Finite 1) with (Finite (exp (- (C * 0)))) by (rewrite Rmult_0_r, Ropp_0, exp_0; reflexivity).
    apply (is_lim_comp_continuous (fun g => exp (- g)) (fun y => exp (- (C * y))) p_infty 0).
    - apply (is_lim_comp exp (fun g => - g) p_infty 0 m_infty).
      + apply is_lim_exp_m.
      + apply (is_lim_opp (fun g => g) p_infty p_infty). apply is_lim_id.
      + exists 0. intros; discriminate.
    - apply (ex_derive_continuous (V := R_NormedModule)). auto_derive. auto.
  Qed.

  Lemma F_at_m : is_lim F m_infty 0.
  Proof.
    pose proof C_pos. unfold F.
    replace (Finite 0) with (Rbar_mult (Finite 0) (Finite (/ C))) by (simpl; f_equal; ring).
    apply (is_lim_scal_r (fun g => exp (- (C * exp (- g)))) (/ C) m_infty 0).
    apply (is_lim_comp exp (fun g => - (C * exp (- g))) m_infty 0 m_infty).
    - apply is_lim_exp_m.
    - apply (is_lim_opp (fun g => C * exp (- g)) m_infty p_infty).
      replace p_infty with (Rbar_mult C p_infty).
      2:{ simpl. destruct (Rle_dec 0 C); [|lra]. destruct (Rle_lt_or_eq_dec 0 C r); auto. lra. }
      apply (is_lim_scal_l (fun g => exp (- g)) C m_infty p_infty).
      apply (is_lim_comp exp (fun g => - g) m_infty p_infty p_infty).
      + apply is_lim_exp_p.
      + apply (is_lim_opp (fun g => g) m_infty m_infty). apply is_lim_id.
      + exists 0. intros; discriminate.
    - exists 0. intros; discriminate.
  Qed.

  Lemma gumbel_max : first_choice_probability K s a (/ C).
  Proof.
    unfold first_choice_probability.
    apply (is_RInt_gen_ext (Derive F)).
    { exists (fun _ => True) (fun _ => True); try apply filter_true.
      intros x y _ _ g _. rewrite integrand. apply is_derive_unique. apply F_derive. }
    replace (/ C) with (/ C - 0) by ring.
    apply (is_RInt_gen_Derive F).
    - exists (fun _ => True) (fun _ => True); try apply filter_true.
      intros x y _ _ g _. eexists. apply F_derive.
    - exists (fun _ => True) (fun _ => True); try apply filter_true.
      intros x y _ _ g _.
      apply (continuous_ext (fun g => exp (- g) * exp (- (C * exp (- g))))).
      + intros z. symmetry. apply is_derive_unique. apply F_derive.
      + apply F_cont.
    - exact F_at_m.
    - exact F_at_p.
  Qed.

  Lemma C_softmax : / C = exp (s a) / sumn K (fun b => exp (s b)).
  Proof.
    assert (E : C = sumn K (fun b => exp (s b)) * exp (- s a)).
    { unfold C. rewrite <- sumn_scal_r. apply sumn_ext. intros. rewrite <- exp_plus. f_equal. }
    pose proof (exp_pos (s a)).
    assert (0 < sumn K (fun b => exp (s b))) by (apply sumn_allpos; [lia|intros; apply exp_pos]).
    rewrite E, exp_Ropp. field. split; lra.
  Qed.
End Trick.

Lemma gumbel_max_softmax K s a : (a < K)%nat ->
  first_choice_probability K s a (exp (s a) / sumn K (fun b => exp (s b))).
Proof. intros H. rewrite <- C_softmax by auto. apply gumbel_max; auto. Qed.

(** The probability is unique. *)
Lemma first_choice_unique K s a v v' :
  first_choice_probability K s a v -> first_choice_probability K s a v' -> v = v'.
Proof.
  intros H1 H2. unfold first_choice_probability in *.
  rewrite <- (is_RInt_gen_unique _ v H1). apply is_RInt_gen_unique. exact H2.
Qed.
