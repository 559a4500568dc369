(** * P_ContMse: property C168 (mean squared error of the kernel estimators over the generator's own randomness) *)

From Coq Require Import Reals List ZArith Lia Lra Bool.
From Coquelicot Require Import Coquelicot.
From Verif Require Import Num NpList M_Utils M_Cont M_Data S_Base S_Cont S_Data S_Draws
  L_Num L_Base L_Utils L_Cont L_ContInt L_Draws L_Data P_Cont P_Draws P_DataCont P_ContDraws.
Import ListNotations.
Open Scope R_scope.

(** ** Lemmas *)

Ltac inR := match goal with |- ?x = ?y => change ((x : R) = (y : R)) end.

(** The mean of the square of a sum of functions of independent draws. *)
Lemma mean_square n : forall (z : nat -> R -> R) (mu s : nat -> R) c,
  (forall i, (i < n)%nat -> is_RInt (z i) 0 1 (mu i) /\ is_RInt (fun u => z i u * z i u) 0 1 (s i)) ->
  uniform_mean n (fun us => (c + sumn n (fun i => z i (us i))) ^ 2) ((c + sumn n mu) ^ 2 + sumn n (fun i => s i - mu i ^ 2)).
Proof.
  induction n as [|n IH]; intros z mu s c H; [cbn; ring|]. cbn [uniform_mean].
  set (A := c + sumn n (fun i => mu (S i))). set (V := sumn n (fun i => s (S i) - mu (S i) ^ 2)).
  exists (fun u => (A ^ 2 + V) + (2 * A * z 0%nat u + z 0%nat u * z 0%nat u)). split.
  - intros u Hu.
    assert (E : (c + z 0%nat u + sumn n (fun i => mu (S i))) ^ 2 + sumn n (fun i => s (S i) - mu (S i) ^ 2) = A ^ 2 + V + (2 * A * z 0%nat u + z 0%nat u * z 0%nat u)) by (unfold A, V; ring).
    rewrite <- E. eapply (mean_ext n); [|apply (IH (fun i => z (S i)) (fun i => mu (S i)) (fun i => s (S i)) (c + z 0%nat u))].
    + intros us _. cbv beta. rewrite sumn_S_first. cbn [scons]. f_equal. ring.
    + intros i Hi. apply H. lia.
  - destruct (H 0%nat ltac:(lia)) as [H1 H2]. rewrite !sumn_S_first.
    eapply is_RInt_val; [|apply (is_RInt_plus (V := R_NormedModule)); [apply const_int|apply (is_RInt_plus (V := R_NormedModule)); [apply (is_RInt_scal (V := R_NormedModule)); exact H1|exact H2]]].
    change ((1 - 0) * (A ^ 2 + V) + (2 * A * mu 0%nat + s 0%nat) = (c + (mu 0%nat + sumn n (fun i => mu (S i)))) ^ 2 + (s 0%nat - mu 0%nat ^ 2 + sumn n (fun i => s (S i) - mu (S i) ^ 2))).
    unfold A, V. ring.
Qed.

Lemma Rmax_half x y : Rmax x y = (x + y + Rabs (x - y)) / 2.
Proof. unfold Rmax, Rabs. destruct (Rle_dec x y), (Rcase_abs (x - y)); lra. Qed.
Lemma Rmin_half x y : Rmin x y = (x + y - Rabs (x - y)) / 2.
Proof. unfold Rmin, Rabs. destruct (Rle_dec x y), (Rcase_abs (x - y)); lra. Qed.

Lemma cont_Rmax c f (x : R) : continuous f x -> continuous (fun y : R => Rmax c (f y)) x.
Proof.
  intros H. apply (continuous_ext (fun y : R => (c + f y + Rabs (c - f y)) * / 2)); [intros y; rewrite Rmax_half; reflexivity|].
  apply (continuous_mult (K := R_AbsRing)); [|apply continuous_const].
  apply (continuous_plus (V := R_NormedModule) (fun y : R => c + f y) (fun y => Rabs (c - f y))).
  - apply (continuous_plus (V := R_NormedModule)); [apply continuous_const|exact H].
  - apply continuous_Rabs_comp. apply (continuous_minus (V := R_NormedModule) (fun _ : R => c) f); [apply continuous_const|exact H].
Qed.
Lemma cont_Rmin c f (x : R) : continuous f x -> continuous (fun y : R => Rmin c (f y)) x.
Proof.
  intros H. apply (continuous_ext (fun y : R => (c + f y - Rabs (c - f y)) * / 2)); [intros y; rewrite Rmin_half; reflexivity|].
  apply (continuous_mult (K := R_AbsRing)); [|apply continuous_const].
  apply (continuous_minus (V := R_NormedModule) (fun y : R => c + f y) (fun y => Rabs (c - f y))).
  - apply (continuous_plus (V := R_NormedModule)); [apply continuous_const|exact H].
  - apply continuous_Rabs_comp. apply (continuous_minus (V := R_NormedModule) (fun _ : R => c) f); [apply continuous_const|exact H].
Qed.

Lemma Kspec_continuous k u : k <> Gaussian -> continuous (Kspec k) u.
Proof.
  intros Hk. destruct k; cbn [Kspec]; try congruence.
  - apply (continuous_ext (fun u : R => 3 / 4 * Rmax 0 (1 - u * u))).
    + intros y. unfold K_epanechnikov. destruct (Rle_dec (Rabs y) 1) as [H|H].
      * rewrite Rmax_right; auto. apply Rabs_le_between in H. nra.
      * rewrite Rmax_left; [inR; ring|]. assert (1 < Rabs y) by lra. unfold Rabs in *. destruct (Rcase_abs y); nra.
    + apply (continuous_mult (K := R_AbsRing)); [apply continuous_const|]. apply cont_Rmax.
      apply (continuous_minus (V := R_NormedModule) (fun _ : R => 1) (fun y => y * y)); [apply continuous_const|].
      apply (continuous_mult (K := R_AbsRing)); apply continuous_id.
  - apply (continuous_ext (fun u : R => Rmax 0 (1 - Rabs u))); [reflexivity|]. apply cont_Rmax.
    apply (continuous_minus (V := R_NormedModule) (fun _ : R => 1) Rabs); [apply continuous_const|apply continuous_Rabs].
  - apply (continuous_ext (fun u : R => PI / 4 * cos (PI / 2 * Rmin 1 (Rmax (-1) u)))).
    + intros y. unfold K_cosine. destruct (Rle_dec (Rabs y) 1) as [H|H].
      * apply Rabs_le_between in H. rewrite (Rmax_right (-1) y), (Rmin_right 1 y) by lra. reflexivity.
      * assert (E : Rmin 1 (Rmax (-1) y) = 1 \/ Rmin 1 (Rmax (-1) y) = -1).
        { assert (1 < Rabs y) as H1 by lra. unfold Rabs in H1. destruct (Rcase_abs y).
          - right. rewrite Rmax_left, Rmin_right by lra. reflexivity.
          - left. rewrite Rmax_right, Rmin_left by lra. reflexivity. }
        destruct E as [-> | ->]; [rewrite Rmult_1_r, cos_PI2; inR; ring|]. replace (PI / 2 * -1) with (-1 * PI / 2) by lra. rewrite cos_half_pi_neg. inR. ring.
    + apply (continuous_mult (K := R_AbsRing)); [apply continuous_const|].
      apply (continuous_comp (fun u : R => PI / 2 * Rmin 1 (Rmax (-1) u)) cos); [|apply continuous_cos].
      apply (continuous_mult (K := R_AbsRing)); [apply continuous_const|]. apply cont_Rmin, cont_Rmax, continuous_id.
Qed.

Lemma Kspec_le_1 k u : k <> Gaussian -> Kspec k u <= 1.
Proof.
  intros Hk. eapply Rle_trans; [apply K_max|]. destruct k; cbn [Kspec]; try congruence.
  - unfold K_epanechnikov. destruct (Rle_dec _ _); lra.
  - unfold K_triangular. rewrite Rabs_R0, Rmax_right; lra.
  - unfold K_cosine. pose proof PI_4. rewrite Rmult_0_r, cos_0. destruct (Rle_dec _ _); lra.
Qed.

Lemma window_continuous k h e (a : R) : k <> Gaussian -> 0 < h -> continuous (fun a : R => Kspec k ((e - a) / h) / h) a.
Proof.
  intros Hk Hh. apply (continuous_mult (K := R_AbsRing) (fun a => Kspec k ((e - a) / h)) (fun _ => / h)); [|apply continuous_const].
  apply (continuous_comp (fun a : R => (e - a) / h) (Kspec k)); [|apply Kspec_continuous; auto].
  apply (continuous_mult (K := R_AbsRing) (fun a => e - a) (fun _ => / h)); [|apply continuous_const].
  apply (continuous_minus (V := R_NormedModule) (fun _ : R => e) (fun a => a)); [apply continuous_const|apply continuous_id].
Qed.

(** The moments of one round. *)
Lemma round_moments k h lo hi e f Rb : k <> Gaussian -> 0 < h -> lo < hi -> lo <= e - h -> e + h <= hi ->
  (forall a, Rabs (a - e) <= h -> continuous f a /\ Rabs (f a) <= Rb) ->
  let z u := Kspec k ((e - (lo + (hi - lo) * u)) / h) / (h * (1 / (hi - lo))) * f (lo + (hi - lo) * u) in
  exists S S2, smooths (Kspec k) h e (e - h) (e + h) f S /\ is_RInt z 0 1 S /\ is_RInt (fun u => z u * z u) 0 1 S2 /\ S2 <= (hi - lo) * Rb ^ 2 / h.
Proof.
  intros Hk Hh Hlh Hl Hr Hf z.
  set (g := fun a => Kspec k ((e - a) / h) / (h * (1 / (hi - lo))) * (f a * f a)).
  assert (WIN : forall a, Rmin (e - h) (e + h) <= a <= Rmax (e - h) (e + h) -> Rabs (a - e) <= h).
  { intros a Ha. rewrite Rmin_left, Rmax_right in Ha by lra. apply Rabs_le. lra. }
  destruct (ex_RInt_continuous (V := R_CompleteNormedModule) (fun a : R => Kspec k ((e - a) / h) / h * f a) (e - h) (e + h)) as [S HS].
  { intros a Ha. apply (continuous_mult (K := R_AbsRing)); [apply window_continuous; auto|]. apply Hf, WIN, Ha. }
  assert (GC : forall a, Rabs (a - e) <= h -> continuous g a).
  { intros a Ha. apply (continuous_mult (K := R_AbsRing) (fun a => Kspec k ((e - a) / h) / (h * (1 / (hi - lo)))) (fun a => f a * f a)).
    - apply (continuous_ext (fun a : R => Kspec k ((e - a) / h) / h * (hi - lo))); [intros y; inR; field; lra|].
      apply (continuous_mult (K := R_AbsRing)); [apply window_continuous; auto|apply continuous_const].
    - apply (continuous_mult (K := R_AbsRing)); apply Hf, Ha. }
  destruct (ex_RInt_continuous (V := R_CompleteNormedModule) (fun a : R => Kspec k ((e - a) / h) / h * g a) (e - h) (e + h)) as [S2 HS2].
  { intros a Ha. apply (continuous_mult (K := R_AbsRing)); [apply window_continuous; auto|]. apply GC, WIN, Ha. }
  exists S, S2. split; [exact HS|].
  assert (P : 0 < 1 / (hi - lo)) by (apply Rmult_lt_0_compat; [lra|apply Rinv_0_lt_compat; lra]).
  assert (RM : forall f0 S0, smooths (Kspec k) h e (e - h) (e + h) f0 S0 ->
    is_RInt (fun u => Kspec k ((e - (lo + (hi - lo) * u)) / h) / (h * (1 / (hi - lo))) * (f0 (lo + (hi - lo) * u) + 0)) 0 1 (S0 + 0 * 1)).
  { intros f0 S0 H0. apply (round_mean (Kspec k) h e (fun u => lo + (hi - lo) * u) (fun _ => 1 / (hi - lo)) lo hi f0 0 S0 1 Hh ltac:(lra) (uniform_draws lo hi Hlh)); auto.
    - intros u Hu. left. nra.
    - apply smooths_widen; auto.
    - apply smooths_one; auto. }
  split; [|split].
  - eapply is_RInt_val; [|eapply (is_RInt_ext (V := R_NormedModule)); [|apply (RM f S HS)]]; [ring|]. intros u _. unfold z. cbv beta. rewrite Rplus_0_r. reflexivity.
  - eapply is_RInt_val; [|eapply (is_RInt_ext (V := R_NormedModule)); [|apply (RM g S2 HS2)]]; [ring|]. intros u _. unfold z, g. cbv beta. rewrite Rplus_0_r.
    inR. ring.
  - set (C := (hi - lo) * Rb ^ 2 / h).
    assert (HB : is_RInt (fun a => C * (Kspec k ((e - a) / h) / h * 1)) (e - h) (e + h) (C * 1)).
    { apply (is_RInt_scal (V := R_NormedModule) _ _ _ C). apply smooths_one; auto; lra. }
    rewrite <- (Rmult_1_r C). apply (is_RInt_le (fun a => Kspec k ((e - a) / h) / h * g a) (fun a => C * (Kspec k ((e - a) / h) / h * 1)) (e - h) (e + h)); auto; [lra|].
    intros a Ha. destruct (Hf a) as [_ Hb]; [apply Rabs_le; lra|].
    assert (W0 : 0 <= Kspec k ((e - a) / h) / h) by (apply Rmult_le_pos; [apply K_nonneg|left; apply Rinv_0_lt_compat; auto]).
    rewrite Rmult_1_r, Rmult_comm. apply Rmult_le_compat_r; auto. unfold g, C.
    assert (F2 : 0 <= f a * f a <= Rb ^ 2) by (split; [nra|]; apply Rabs_le_between in Hb; nra).
    replace (Kspec k ((e - a) / h) / (h * (1 / (hi - lo))) * (f a * f a)) with ((hi - lo) / h * (Kspec k ((e - a) / h) * (f a * f a))) by (field; lra).
    replace ((hi - lo) * Rb ^ 2 / h) with ((hi - lo) / h * (1 * Rb ^ 2)) by (field; lra).
    apply Rmult_le_compat_l; [apply Rmult_le_pos; [lra|left; apply Rinv_0_lt_compat; auto]|].
    apply Rmult_le_compat; try tauto; [apply K_nonneg|apply Kspec_le_1; auto].
Qed.

Lemma choice_n {A} (d : A) n (Q : nat -> A -> Prop) : (forall i, (i < n)%nat -> exists x, Q i x) -> exists f, forall i, (i < n)%nat -> Q i (f i).
Proof.
  induction n as [|n IH]; intros H; [exists (fun _ => d); intros; lia|].
  destruct IH as [f Hf]; [intros; apply H; lia|]. destruct (H n ltac:(lia)) as [x Hx].
  exists (fun i => if Nat.eq_dec i n then x else f i). intros i Hi. destruct (Nat.eq_dec i n) as [->|]; auto. apply Hf. lia.
Qed.

(** ** C168 *)

(** An estimator over the logs generated from uniform draws: it always answers, and its mean squared distance from [target] is at most
    [bound]. *)
Definition squared_error_within {B : Type} (n : nat) (generate : (nat -> R) -> res B) (est : B -> res num) (target bound : R) : Prop :=
  exists X mse, (forall us, unit_draws us -> exists b, generate us = Ok b /\ est b = Ok (Fin (X us))) /\
    uniform_mean n (fun us => (X us - target) ^ 2) mse /\ mse <= bound.

Lemma kernel_mse k h lo hi n m e q noise L Rb :
  k <> Gaussian -> 0 < h -> lo < hi -> (0 < n)%nat -> 0 <= L ->
  (forall i, (i < n)%nat -> lo <= e i - h /\ e i + h <= hi /\
     forall a, Rabs (a - e i) <= h -> continuous (m i) a /\ Rabs (m i a - m i (e i)) <= L * Rabs (a - e i) /\ Rabs (m i a + noise i - q i) <= Rb) ->
  exists mse, uniform_mean n (fun us => (avg n (fun i => q i + Kspec k ((e i - (lo + (hi - lo) * us i)) / h) / (h * (1 / (hi - lo))) * (m i (lo + (hi - lo) * us i) + noise i - q i))
      - (avg n (fun i => m i (e i)) + avg n noise)) ^ 2) mse /\ mse <= (L * h) ^ 2 + (hi - lo) * Rb ^ 2 / (INR n * h).
Proof.
  intros Hk Hh Hlh Hn HL H. pose proof (INR_pos n Hn) as PN.
  set (z := fun i u => Kspec k ((e i - (lo + (hi - lo) * u)) / h) / (h * (1 / (hi - lo))) * (m i (lo + (hi - lo) * u) + noise i - q i)).
  destruct (choice_n (0, 0) n (fun i x => smooths (Kspec k) h (e i) (e i - h) (e i + h) (fun a => m i a + noise i - q i) (fst x) /\
     is_RInt (z i) 0 1 (fst x) /\ is_RInt (fun u => z i u * z i u) 0 1 (snd x) /\ snd x <= (hi - lo) * Rb ^ 2 / h)) as [xs Hxs].
  { intros i Hi. destruct (H i Hi) as (L1 & R1 & H1).
    destruct (round_moments k h lo hi (e i) (fun a => m i a + noise i - q i) Rb Hk Hh Hlh L1 R1) as (S & S2 & A & B & C & D).
    - intros a Ha. destruct (H1 a Ha) as (C1 & _ & C3). split; [|exact C3].
      apply (continuous_minus (V := R_NormedModule) (fun a => m i a + noise i) (fun _ : R => q i)); [|apply continuous_const].
      apply (continuous_plus (V := R_NormedModule) (m i) (fun _ : R => noise i)); [exact C1|apply continuous_const].
    - exists (S, S2). auto. }
  set (T := avg n (fun i => m i (e i)) + avg n noise).
  set (c := sumn n q - INR n * T).
  pose proof (mean_square n z (fun i => fst (xs i)) (fun i => snd (xs i)) c (fun i Hi => conj (proj1 (proj2 (Hxs i Hi))) (proj1 (proj2 (proj2 (Hxs i Hi)))))) as MS.
  apply (mean_scal n _ _ (/ INR n * / INR n)) in MS.
  exists (/ INR n * / INR n * ((c + sumn n (fun i => fst (xs i))) ^ 2 + sumn n (fun i => snd (xs i) - fst (xs i) ^ 2))). split.
  - eapply mean_ext; [|exact MS]. intros us _. cbv beta. unfold avg at 1. rewrite sumn_plus. unfold c, z. field. lra.
  - assert (BIAS : Rabs (c + sumn n (fun i => fst (xs i))) <= INR n * (L * h)).
    { assert (E : c + sumn n (fun i => fst (xs i)) = sumn n (fun i => q i + fst (xs i) - (m i (e i) + noise i))).
      { rewrite sumn_minus, !sumn_plus. unfold c, T, avg. field. lra. }
      rewrite E.
      assert (PT : forall i, (i < n)%nat -> Rabs (q i + fst (xs i) - (m i (e i) + noise i)) <= L * h).
      { intros i Hi. destruct (Hxs i Hi) as (S1 & _). destruct (H i Hi) as (_ & _ & H1).
        pose proof (smooths_lipschitz k h (e i) (e i - h) (e i + h) (fun a => m i a + noise i - q i) (fst (xs i)) 1 L Hk Hh ltac:(lra) HL) as Q. cbv beta in Q.
        assert (Q' : Rabs (fst (xs i) - (m i (e i) + noise i - q i) * 1) <= L * h * 1).
        { apply Q; auto; [|apply smooths_one; auto; lra]. intros a _ Ha. destruct (H1 a Ha) as (_ & C2 & _).
          replace (m i a + noise i - q i - (m i (e i) + noise i - q i)) with (m i a - m i (e i)) by ring. exact C2. }
        replace (q i + fst (xs i) - (m i (e i) + noise i)) with (fst (xs i) - (m i (e i) + noise i - q i) * 1) by ring. lra. }
      apply Rabs_le. rewrite <- !sumn_const.
      split; [|apply sumn_le; intros i Hi; specialize (PT i Hi); apply Rabs_le_between in PT; lra].
      rewrite <- (Rmult_1_l (sumn n (fun _ => L * h))), Ropp_mult_distr_l, <- sumn_scal.
      apply sumn_le; intros i Hi; specialize (PT i Hi); apply Rabs_le_between in PT; lra. }
    assert (VAR : sumn n (fun i => snd (xs i) - fst (xs i) ^ 2) <= INR n * ((hi - lo) * Rb ^ 2 / h)).
    { rewrite <- sumn_const. apply sumn_le. intros i Hi. destruct (Hxs i Hi) as (_ & _ & _ & B). pose proof (pow2_ge_0 (fst (xs i))). lra. }
    assert (BS : (c + sumn n (fun i => fst (xs i))) ^ 2 <= (INR n * (L * h)) ^ 2).
    { rewrite <- (pow2_abs (c + _)). apply pow_incr. split; [apply Rabs_pos|exact BIAS]. }
    assert (0 < / INR n * / INR n) by (apply Rmult_lt_0_compat; apply Rinv_0_lt_compat; auto).
    replace ((L * h) ^ 2 + (hi - lo) * Rb ^ 2 / (INR n * h)) with (/ INR n * / INR n * ((INR n * (L * h)) ^ 2 + INR n * ((hi - lo) * Rb ^ 2 / h))) by (field; lra).
    apply Rmult_le_compat_l; lra.
Qed.

(** Both estimators, for compact kernels, windows inside the range of the actions and rewards that are Lipschitz there. *)
Theorem C168_mean_squared_error : forall k h draw pdf lo hi an reward n context noise m e q dim L Rb Rq,
  k <> Gaussian -> 0 < h -> lo < hi -> (0 < n)%nat -> length context = n -> length (nth 0 context []) = dim -> reward_means reward context n m -> 0 <= L ->
  (forall i, (i < n)%nat -> lo <= e i - h /\ e i + h <= hi /\
     forall a, Rabs (a - e i) <= h -> continuous (m i) a /\ Rabs (m i a - m i (e i)) <= L * Rabs (a - e i) /\
       Rabs (m i a + noise i) <= Rb /\ Rabs (m i a + noise i - q i) <= Rq) ->
  let generate us := cont_obtain draw pdf (Fin lo) (Fin hi) an reward None (Z.of_nat n) context us noise in
  exists truth, cont_ground_truth dim reward context (tabF n e) = Ok (Fin truth) /\
    squared_error_within n generate (fun cb => kipw_value k (Fin h) (cb_reward cb) (cb_action cb) (cb_pscore cb) (tabF n e))
      (truth + avg n noise) ((L * h) ^ 2 + (hi - lo) * Rb ^ 2 / (INR n * h)) /\
    squared_error_within n generate (fun cb => kdr_value k (Fin h) (tabF n q) (cb_reward cb) (cb_action cb) (cb_pscore cb) (tabF n e))
      (truth + avg n noise) ((L * h) ^ 2 + (hi - lo) * Rq ^ 2 / (INR n * h)).
Proof.
  intros k h draw pdf lo hi an reward n context noise m e q dim L Rb Rq Hk Hh Hlh Hn Hc Hd Hm HL H generate.
  assert (P : 0 < 1 / (hi - lo)) by (apply Rmult_lt_0_compat; [lra|apply Rinv_0_lt_compat; lra]).
  assert (HG : forall us, unit_draws us -> exists cb, generate us = Ok cb /\ cb_action cb = tabF n (fun i => lo + (hi - lo) * us i) /\
     cb_pscore cb = tabF n (fun _ => 1 / (hi - lo)) /\ cb_reward cb = tabF n (fun i => m i (lo + (hi - lo) * us i) + noise i)).
  { intros us Hus. destruct (cont_log_table draw pdf (Fin lo) (Fin hi) an reward None n context us noise m Hn Hm (fun i => lo + (hi - lo) * us i) (fun _ => 1 / (hi - lo))) as (cb & E & A1 & A2 & A3 & _).
    - left. exists lo, hi. repeat split; auto; specialize (Hus i); lra.
    - exists cb. auto. }
  exists (avg n (fun i => m i (e i))). split; [|split].
  - apply (C109_ground_truth dim reward context (tabF n e) n (fun i => m i (e i))); auto. apply tab_length.
  - destruct (kernel_mse k h lo hi n m e (fun _ => 0) noise L Rb Hk Hh Hlh Hn HL) as (mse & M1 & M2).
    { intros i Hi. destruct (H i Hi) as (L1 & R1 & H1). split; [exact L1|]. split; [exact R1|]. intros a Ha. destruct (H1 a Ha) as (C1 & C2 & C3 & _).
      rewrite Rminus_0_r. auto. }
    eexists _, mse. split; [|split; [exact M1|exact M2]].
    intros us Hus. destruct (HG us Hus) as (cb & E & A1 & A2 & A3). exists cb. split; [exact E|]. rewrite A1, A2, A3.
    etransitivity; [apply (kernel_estimates k h n (fun i => lo + (hi - lo) * us i) e (fun _ => 1 / (hi - lo)) _ (fun _ => 0)); auto|].
    do 2 f_equal. apply avg_ext. intros i Hi. ring.
  - destruct (kernel_mse k h lo hi n m e q noise L Rq Hk Hh Hlh Hn HL) as (mse & M1 & M2).
    { intros i Hi. destruct (H i Hi) as (L1 & R1 & H1). split; [exact L1|]. split; [exact R1|]. intros a Ha. destruct (H1 a Ha) as (C1 & C2 & _ & C3). auto. }
    eexists _, mse. split; [|split; [exact M1|exact M2]].
    intros us Hus. destruct (HG us Hus) as (cb & E & A1 & A2 & A3). exists cb. split; [exact E|]. rewrite A1, A2, A3.
    apply (kernel_estimates k h n (fun i => lo + (hi - lo) * us i) e (fun _ => 1 / (hi - lo)) _ q); auto.
Qed.

Lemma bandwidth_bound L Rb lo hi h n : 0 < h -> lo < hi -> (0 < n)%nat -> 1 <= INR n * h ^ 3 ->
  (L * h) ^ 2 + (hi - lo) * Rb ^ 2 / (INR n * h) <= (L ^ 2 + (hi - lo) * Rb ^ 2) * h ^ 2.
Proof.
  intros Hh Hlh Hn H. pose proof (INR_pos n Hn) as PN. pose proof (pow2_ge_0 Rb) as RB.
  assert (D : / (INR n * h) <= h ^ 2).
  { apply (Rmult_le_reg_r (INR n * h)); [apply Rmult_lt_0_compat; auto|]. rewrite Rinv_l by (apply Rgt_not_eq, Rmult_lt_0_compat; auto). simpl in *. nra. }
  assert (0 <= (hi - lo) * Rb ^ 2) by (apply Rmult_le_pos; lra).
  unfold Rdiv. assert ((hi - lo) * Rb ^ 2 * / (INR n * h) <= (hi - lo) * Rb ^ 2 * h ^ 2) by (apply Rmult_le_compat_l; auto).
  rewrite Rpow_mult_distr. lra.
Qed.

(** Consistency: once n h^3 >= 1, the mean squared error is at most a constant times the square of the bandwidth, the constant depending
    only on the Lipschitz constant, the range of the actions and the size of the rewards; a bandwidth n^(-1/3) gives n^(-2/3). *)
Theorem C168_bandwidth : forall k h draw pdf lo hi an reward n context noise m e q dim L Rb Rq,
  k <> Gaussian -> 0 < h -> lo < hi -> (0 < n)%nat -> length context = n -> length (nth 0 context []) = dim -> reward_means reward context n m -> 0 <= L ->
  (forall i, (i < n)%nat -> lo <= e i - h /\ e i + h <= hi /\
     forall a, Rabs (a - e i) <= h -> continuous (m i) a /\ Rabs (m i a - m i (e i)) <= L * Rabs (a - e i) /\
       Rabs (m i a + noise i) <= Rb /\ Rabs (m i a + noise i - q i) <= Rq) ->
  1 <= INR n * h ^ 3 ->
  let generate us := cont_obtain draw pdf (Fin lo) (Fin hi) an reward None (Z.of_nat n) context us noise in
  exists truth, cont_ground_truth dim reward context (tabF n e) = Ok (Fin truth) /\
    squared_error_within n generate (fun cb => kipw_value k (Fin h) (cb_reward cb) (cb_action cb) (cb_pscore cb) (tabF n e))
      (truth + avg n noise) ((L ^ 2 + (hi - lo) * Rb ^ 2) * h ^ 2) /\
    squared_error_within n generate (fun cb => kdr_value k (Fin h) (tabF n q) (cb_reward cb) (cb_action cb) (cb_pscore cb) (tabF n e))
      (truth + avg n noise) ((L ^ 2 + (hi - lo) * Rq ^ 2) * h ^ 2).
Proof.
  intros k h draw pdf lo hi an reward n context noise m e q dim L Rb Rq Hk Hh Hlh Hn Hc Hd Hm HL H HB generate.
  destruct (C168_mean_squared_error k h draw pdf lo hi an reward n context noise m e q dim L Rb Rq) as (truth & T & A & B); auto.
  exists truth. split; [exact T|]. split.
  - destruct A as (X & mse & A1 & A2 & A3). exists X, mse. split; [exact A1|]. split; [exact A2|]. eapply Rle_trans; [exact A3|]. apply bandwidth_bound; auto.
  - destruct B as (X & mse & A1 & A2 & A3). exists X, mse. split; [exact A1|]. split; [exact A2|]. eapply Rle_trans; [exact A3|]. apply bandwidth_bound; auto.
Qed.

(** Rewards 2a - 1 logged uniformly on [0, 10] in two rounds, evaluated at action 4 with bandwidth 1: KernelizedIPW is within
    4 + 405 of 7 in mean square, KernelizedDR with the prediction 7 within 4 + 20. *)
Example C168_ex : let reward := Some (fun (_ : mat) acts => map (fun a => nsub (nmul (Fin 2) a) (Fin 1)) acts) in
  let generate us := cont_obtain (fun _ _ _ _ _ => 0) (fun _ _ _ _ _ => 0) (Fin 0) (Fin 10) 1 reward None 2 [[0]; [1]] us (fun _ => 0) in
  squared_error_within 2 generate (fun cb => kipw_value Triangular (Fin 1) (cb_reward cb) (cb_action cb) (cb_pscore cb) (tabF 2 (fun _ => 4))) 7 409 /\
  squared_error_within 2 generate (fun cb => kdr_value Triangular (Fin 1) (tabF 2 (fun _ => 7)) (cb_reward cb) (cb_action cb) (cb_pscore cb) (tabF 2 (fun _ => 4))) 7 24.
Proof.
  intros reward generate.
  assert (Hm : reward_means reward [[0]; [1]] 2 (fun _ a => 2 * a - 1)).
  { intros x. unfold reward, tabF. rewrite map_tab. apply tab_ext. intros i _. cbn. f_equal. }
  destruct (C168_mean_squared_error Triangular 1 (fun _ _ _ _ _ => 0) (fun _ _ _ _ _ => 0) 0 10 1 reward 2 [[0]; [1]] (fun _ => 0) (fun _ a => 2 * a - 1) (fun _ => 4) (fun _ => 7) 1%nat 2 9 2)
    as (truth & T & A & B); auto; try lra; try discriminate.
  - intros i Hi. split; [lra|]. split; [lra|]. intros a Ha. apply Rabs_le_between in Ha. repeat split.
    + apply (continuous_minus (V := R_NormedModule) (fun a : R => 2 * a) (fun _ => 1)); [|apply continuous_const].
      apply (continuous_mult (K := R_AbsRing) (fun _ => 2) (fun a : R => a)); [apply continuous_const|apply continuous_id].
    + replace (2 * a - 1 - (2 * 4 - 1)) with (2 * (a - 4)) by ring. rewrite Rabs_mult, (Rabs_right 2) by lra. lra.
    + apply Rabs_le. lra.
    + apply Rabs_le. lra.
  - assert (ET : truth + avg 2 (fun _ => 0) = 7).
    { assert (E : cont_ground_truth 1 reward [[0]; [1]] (tabF 2 (fun _ => 4)) = Ok (Fin (avg 2 (fun _ => 7)))).
      { apply (C109_ground_truth 1 reward [[0]; [1]] (tabF 2 (fun _ => 4)) 2 (fun _ => 7)); auto.
        unfold reward, tabF. rewrite map_tab. apply tab_ext. intros i _. cbn. f_equal. ring. }
      rewrite E in T. injection T as <-. unfold avg, sumn. cbn [INR]. field. }
    rewrite ET in A, B. split.
    + destruct A as (X & mse & A1 & A2 & A3). exists X, mse. split; [exact A1|]. split; [exact A2|]. cbn [INR] in A3. lra.
    + destruct B as (X & mse & A1 & A2 & A3). exists X, mse. split; [exact A1|]. split; [exact A2|]. cbn [INR] in A3. lra.
Qed.

Print Assumptions C168_mean_squared_error.
Print Assumptions C168_bandwidth.
