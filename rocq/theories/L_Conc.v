(** * L_Conc: concentration inequalities for finite-support distributions. *)

From Coq Require Import Reals List ZArith Bool Lia Lra Permutation FunctionalExtensionality.
From Coquelicot Require Import Coquelicot.
From Verif Require Import Num NpList S_Base S_Prob S_Conc S_Tuning L_Base L_Prob.
Import ListNotations.
Open Scope R_scope.

(** ** Real inequalities *)
Lemma nonneg_by_deriv (f f' : R -> R) u : 0 <= u -> f 0 = 0 ->
  (forall c, 0 <= c <= u -> is_derive f c (f' c)) -> (forall c, 0 <= c <= u -> 0 <= f' c) -> 0 <= f u.
Proof.
  intros Hu H0 Hd Hp. destruct (Req_dec u 0) as [->|Hn]; [lra|].
  destruct (MVT_cor2 f f' 0 u) as (c & E & Hc); [lra| |].
  - intros c Hc. apply is_derive_Reals. auto.
  - specialize (Hp c). assert (0 <= f' c * (u - 0)) by (apply Rmult_le_pos; [apply Hp|]; lra). lra.
Qed.

Lemma exp_ge_1 x : 1 + x <= exp x.
Proof. destruct (Req_dec x 0) as [->|H]; [rewrite exp_0; lra|]. left. apply exp_ineq1. auto. Qed.

Lemma exp_convex t c : 0 <= t <= 1 -> exp (t * c) <= 1 - t + t * exp c.
Proof.
  intros Ht. pose proof (exp_pos (t * c)) as Hp.
  assert (H1 : exp (t * c) * (1 + (1 - t) * c) <= exp c).
  { replace c with (t * c + (1 - t) * c) at 3 by ring. rewrite exp_plus. apply Rmult_le_compat_l; [lra|]. apply exp_ge_1. }
  assert (H2 : exp (t * c) * (1 - t * c) <= 1).
  { apply (Rle_trans _ (exp (t * c) * exp (- (t * c)))).
    - apply Rmult_le_compat_l; [lra|]. pose proof (exp_ge_1 (- (t * c))). lra.
    - rewrite <- exp_plus, Rplus_opp_r, exp_0. lra. }
  assert (H3 : (1 - t) * (exp (t * c) * (1 - t * c)) <= (1 - t) * 1) by (apply Rmult_le_compat_l; lra).
  assert (H4 : t * (exp (t * c) * (1 + (1 - t) * c)) <= t * exp c) by (apply Rmult_le_compat_l; lra).
  nra.
Qed.

(** Hoeffding's lemma for a two-point distribution. *)
Lemma hoeffding_two_point p u : 0 <= p <= 1 -> 0 <= u -> 1 - p + p * exp u <= exp (p * u + u * u / 8).
Proof.
  intros Hp Hu.
  assert (Hq : forall c, 0 <= c -> 0 < 1 - p + p * exp c).
  { intros c Hc. pose proof (exp_ge_1 c). assert (p * 1 <= p * exp c) by (apply Rmult_le_compat_l; lra). lra. }
  assert (H1 : forall v, 0 <= v -> 0 <= p + v / 4 - p * exp v / (1 - p + p * exp v)).
  { intros v Hv. apply (nonneg_by_deriv (fun v => p + v / 4 - p * exp v / (1 - p + p * exp v))
      (fun c => 1 / 4 - (p * exp c) * (1 - p) / ((1 - p + p * exp c) * (1 - p + p * exp c)))); auto.
    - rewrite exp_0. field. lra.
    - intros c Hc. pose proof (Hq c ltac:(lra)). auto_derive; [lra|]. field. lra.
    - intros c Hc. pose proof (Hq c ltac:(lra)) as Hc'. set (a := p * exp c) in *.
      assert (E : 1 / 4 - a * (1 - p) / ((1 - p + a) * (1 - p + a)) = ((1 - p - a) * (1 - p - a)) / (4 * ((1 - p + a) * (1 - p + a)))) by (field; lra).
      rewrite E. apply Rmult_le_pos; [apply Rle_0_sqr|]. left. apply Rinv_0_lt_compat. nra. }
  assert (H2 : 0 <= p * u + u * u / 8 - ln (1 - p + p * exp u)).
  { apply (nonneg_by_deriv (fun v => p * v + v * v / 8 - ln (1 - p + p * exp v))
      (fun v => p + v / 4 - p * exp v / (1 - p + p * exp v))); auto.
    - rewrite exp_0. replace (1 - p + p * 1) with 1 by ring. rewrite ln_1. field.
    - intros c Hc. pose proof (Hq c ltac:(lra)). auto_derive; [lra|]. field. lra.
    - intros c Hc. apply H1. lra. }
  rewrite <- (exp_ln (1 - p + p * exp u)) by (apply Hq; lra). 
  destruct (Req_dec (ln (1 - p + p * exp u)) (p * u + u * u / 8)) as [->|]; [lra|]. left. apply exp_increasing. lra.
Qed.

Lemma exp_neg_quadratic w : 0 <= w -> exp (- w) <= 1 - w + w * w / 2.
Proof.
  intros Hw. cut (0 <= 1 - w + w * w / 2 - exp (- w)); [lra|].
  apply (nonneg_by_deriv (fun w => 1 - w + w * w / 2 - exp (- w)) (fun w => - 1 + w + exp (- w))); auto.
  - rewrite Ropp_0, exp_0. field.
  - intros c Hc. auto_derive; auto. field.
  - intros c Hc. pose proof (exp_ge_1 (- c)). lra.
Qed.

Lemma exp_bernstein_nonneg z : 0 <= z -> z < 3 -> exp z * (1 - z / 3) <= (1 + z) * (1 - z / 3) + z * z / 2.
Proof.
  intros Hz Hz3. cut (0 <= (1 + z) * (1 - z / 3) + z * z / 2 - exp z * (1 - z / 3)); [lra|].
  apply (nonneg_by_deriv (fun z => (1 + z) * (1 - z / 3) + z * z / 2 - exp z * (1 - z / 3))
    (fun z => 2 / 3 + z / 3 - exp z * (2 / 3 - z / 3))); auto.
  - rewrite exp_0. field.
  - intros c Hc. auto_derive; auto. field.
  - intros c Hc. apply (nonneg_by_deriv (fun z => 2 / 3 + z / 3 - exp z * (2 / 3 - z / 3)) (fun z => (1 - exp z * (1 - z)) / 3)); [lra| | |].
    + rewrite exp_0. field.
    + intros d Hd. auto_derive; auto. field.
    + intros d Hd. assert (exp d * (1 - d) <= 1); [|lra].
      apply (Rle_trans _ (exp d * exp (- d))).
      * apply Rmult_le_compat_l; [left; apply exp_pos|]. pose proof (exp_ge_1 (- d)). lra.
      * rewrite <- exp_plus, Rplus_opp_r, exp_0. lra.
Qed.

Lemma exp_bernstein z c : z <= c -> 0 <= c < 3 -> exp z <= 1 + z + z * z / (2 * (1 - c / 3)).
Proof.
  intros Hz Hc. assert (Hsq : 0 <= z * z) by apply Rle_0_sqr.
  destruct (Rle_dec 0 z) as [Hp|Hn].
  - pose proof (exp_bernstein_nonneg z Hp ltac:(lra)) as H.
    apply (Rle_trans _ (1 + z + z * z / (2 * (1 - z / 3)))).
    + apply (Rmult_le_reg_r (1 - z / 3)); [lra|].
      replace ((1 + z + z * z / (2 * (1 - z / 3))) * (1 - z / 3)) with ((1 + z) * (1 - z / 3) + z * z / 2) by (field; lra). lra.
    + apply Rplus_le_compat_l. unfold Rdiv. apply Rmult_le_compat_l; auto. apply Rinv_le_contravar; lra.
  - pose proof (exp_neg_quadratic (- z) ltac:(lra)) as H. rewrite Ropp_involutive in H.
    apply (Rle_trans _ (1 + z + z * z / 2)); [lra|]. apply Rplus_le_compat_l. unfold Rdiv. apply Rmult_le_compat_l; auto.
    apply Rinv_le_contravar; lra.
Qed.

(** ** Expectations *)
Lemma expect_le_supp {A} (d : dist A) f g : is_dist d ->
  (forall a p, In (a, p) d -> p <> 0 -> f a <= g a) -> expect d f <= expect d g.
Proof.
  intros [Hd _]. induction d as [|[a p] d IH]; simpl; intros H; [lra|].
  assert (f a * p <= g a * p).
  { destruct (Req_dec p 0) as [->|Hp]; [lra|]. apply Rmult_le_compat_r; [apply (Hd a); simpl; auto|]. apply (H a p); auto. }
  assert (expect d f <= expect d g) by (apply IH; [intros; apply (Hd a0); simpl; auto|intros; eapply H; eauto]). simpl. lra.
Qed.

Lemma expect_pos {A} (d : dist A) f : is_dist d -> (forall a p, In (a, p) d -> p <> 0 -> 0 <= f a) -> 0 <= expect d f.
Proof.
  intros Hd H. rewrite <- (expect_const d 0 Hd). apply expect_le_supp; auto.
Qed.

Lemma expect_swap {A B} (d : dist A) (e : dist B) f :
  expect d (fun a => expect e (fun b => f a b)) = expect e (fun b => expect d (fun a => f a b)).
Proof.
  induction d as [|[a p] d IH]; simpl.
  - induction e as [|[b q] e IHe]; simpl; [reflexivity|]. rewrite <- IHe. lra.
  - rewrite IH. rewrite <- (expect_scal_r e p (fun b => f a b)), <- expect_plus. reflexivity.
Qed.

Lemma prob_le_expect {A} (d : dist A) e (f : A -> R) : is_dist d ->
  (forall a p, In (a, p) d -> p <> 0 -> 0 <= f a) -> (forall a p, In (a, p) d -> p <> 0 -> e a = true -> 1 <= f a) ->
  prob d e <= expect d f.
Proof.
  intros Hd H0 H1. unfold prob. apply expect_le_supp; auto. intros a p Ha Hp. destruct (e a) eqn:E; eauto.
Qed.

Lemma prob_union {A} (d : dist A) e e1 e2 : is_dist d ->
  (forall a p, In (a, p) d -> p <> 0 -> e a = true -> e1 a = true \/ e2 a = true) -> prob d e <= prob d e1 + prob d e2.
Proof.
  intros Hd H. unfold prob. rewrite <- expect_plus. apply expect_le_supp; auto. intros a p Ha Hp.
  destruct (e a) eqn:E; [|destruct (e1 a), (e2 a); lra].
  destruct (H a p Ha Hp E) as [-> | ->]; [destruct (e2 a)|destruct (e1 a)]; lra.
Qed.

Lemma prob_impossible {A} (d : dist A) e : (forall a p, In (a, p) d -> p <> 0 -> e a = false) -> prob d e = 0.
Proof.
  intros H. unfold prob. rewrite (expect_ext d _ (fun _ => 0)); [|intros a p Ha Hp; rewrite (H a p Ha Hp); reflexivity].
  clear. induction d; simpl; lra.
Qed.

Lemma prob_range {A} (d : dist A) e : is_dist d -> 0 <= prob d e <= 1.
Proof.
  intros Hd. split.
  - apply expect_pos; auto. intros a p _ _. destruct (e a); lra.
  - apply (Rle_trans _ (expect d (fun _ => 1))); [|rewrite expect_const by auto; lra]. apply expect_le_supp; auto. intros a p _ _. destruct (e a); lra.
Qed.

(** Independent coordinates: the expectation of a product is the product. *)
Fixpoint prodf (n : nat) (f : nat -> R) : R := match n with O => 1 | S m => prodf m f * f m end.

Lemma prodf_le1 n f : (forall i, (i < n)%nat -> 0 <= f i <= 1) -> 0 <= prodf n f <= 1.
Proof.
  induction n; simpl; intros H; [lra|]. destruct IHn as [H1 H2]; [intros; apply H; lia|]. specialize (H n ltac:(lia)). split; [nra|nra].
Qed.
Lemma prodf_exp n f : prodf n (fun i => exp (f i)) = exp (sumn n f).
Proof. induction n; simpl; [rewrite exp_0; reflexivity|]. rewrite IHn, exp_plus. reflexivity. Qed.
Lemma prodf_ext n f g : (forall i, (i < n)%nat -> f i = g i) -> prodf n f = prodf n g.
Proof. induction n; simpl; intros H; [reflexivity|]. rewrite IHn, H by (auto; intros; apply H; lia). reflexivity. Qed.

Lemma expect_dprod_prodf {A} n (D : nat -> dist A) (g : nat -> A -> R) (x0 : A) :
  expect (dprod n D) (fun o => prodf n (fun i => g i (nth i o x0))) = prodf n (fun i => expect (D i) (g i)).
Proof.
  induction n; simpl; [lra|]. rewrite expect_dbind. rewrite <- IHn, <- expect_scal_r. apply expect_ext.
  intros o p Ho Hp. rewrite expect_dmap. destruct (In_dprod n D o p Ho Hp) as [Hl _].
  rewrite <- expect_scal. apply expect_ext_all. intros a. f_equal.
  - apply prodf_ext. intros i Hi. f_equal. apply app_nth1. lia.
  - f_equal. rewrite app_nth2 by lia. rewrite Hl, Nat.sub_diag. reflexivity.
Qed.

(** ** Hoeffding's inequality *)
Lemma mean_within d lo hi : is_dist d -> within d lo hi -> lo <= mean d <= hi.
Proof.
  intros Hd Hw. unfold mean. split.
  - rewrite <- (expect_const d lo Hd) at 1. apply expect_le_supp; auto. intros a p Ha Hp. apply (Hw a p Ha Hp).
  - rewrite <- (expect_const d hi Hd). apply expect_le_supp; auto. intros a p Ha Hp. apply (Hw a p Ha Hp).
Qed.

Lemma mgf_hoeffding d b s : is_dist d -> 0 < b -> within d 0 b -> 0 <= s ->
  expect d (fun x => exp (s * (x - mean d) - s * s * (b * b) / 8)) <= 1.
Proof.
  intros Hd Hb Hw Hs. set (m := mean d). pose proof (mean_within d 0 b Hd Hw) as Hm. fold m in Hm.
  apply (Rle_trans _ (expect d (fun x => (1 - x / b + x / b * exp (s * b)) * exp (- (s * m) - s * s * (b * b) / 8)))).
  - apply expect_le_supp; auto. intros x p Hx Hp. destruct (Hw x p Hx Hp) as [H1 H2].
    replace (s * (x - m) - s * s * (b * b) / 8) with (x / b * (s * b) + (- (s * m) - s * s * (b * b) / 8)) by (field; lra).
    rewrite exp_plus. apply Rmult_le_compat_r; [left; apply exp_pos|]. apply exp_convex. split.
    + apply Rmult_le_pos; [lra|]. left. apply Rinv_0_lt_compat. lra.
    + apply (Rmult_le_reg_r b); [lra|]. unfold Rdiv. rewrite Rmult_assoc, Rinv_l; lra.
  - rewrite expect_scal_r.
    replace (expect d (fun x => 1 - x / b + x / b * exp (s * b))) with (1 - m / b + m / b * exp (s * b)).
    2:{ rewrite expect_plus, expect_minus, (expect_const d 1 Hd), expect_scal_r.
        rewrite (expect_ext_all d (fun x => x / b) (fun x => x * / b)) by reflexivity. rewrite expect_scal_r. reflexivity. }
    assert (Hp : 0 <= m / b <= 1).
    { split; [apply Rmult_le_pos; [lra|left; apply Rinv_0_lt_compat; lra]|]. apply (Rmult_le_reg_r b); [lra|]. unfold Rdiv. rewrite Rmult_assoc, Rinv_l; lra. }
    pose proof (hoeffding_two_point (m / b) (s * b) Hp ltac:(apply Rmult_le_pos; lra)) as H.
    apply (Rle_trans _ (exp (m / b * (s * b) + s * b * (s * b) / 8) * exp (- (s * m) - s * s * (b * b) / 8))).
    + apply Rmult_le_compat_r; [left; apply exp_pos|]. auto.
    + rewrite <- exp_plus. right. transitivity (exp 0); [f_equal; field; lra|apply exp_0].
Qed.

Lemma expect_dprod_exp_le1 n (D : nat -> dist R) (g : nat -> R -> R) :
  (forall i, (i < n)%nat -> is_dist (D i)) -> (forall i, (i < n)%nat -> expect (D i) (fun x => exp (g i x)) <= 1) ->
  expect (dprod n D) (fun o => exp (sumn n (fun i => g i (nth i o 0)))) <= 1.
Proof.
  intros Hd H. rewrite (expect_ext_all _ _ (fun o => prodf n (fun i => (fun x => exp (g i x)) (nth i o 0)))).
  2:{ intros o. rewrite <- prodf_exp. reflexivity. }
  rewrite (expect_dprod_prodf n D (fun i x => exp (g i x)) 0). apply prodf_le1. intros i Hi. split; [|auto].
  apply expect_pos; auto. intros. left. apply exp_pos.
Qed.

Lemma hoeffding n (D : nat -> dist R) b t : (0 < n)%nat -> 0 < b -> 0 <= t ->
  (forall i, (i < n)%nat -> is_dist (D i) /\ within (D i) 0 b) ->
  prob (dprod n D) (fun o => if Rlt_dec (avg n (fun i => mean (D i)) + t) (avg n (fun i => nth i o 0)) then true else false)
  <= exp (- (2 * INR n * (t * t) / (b * b))).
Proof.
  intros Hn Hb Ht H. assert (HN : 0 < INR n) by (apply lt_0_INR; auto).
  assert (HD : is_dist (dprod n D)) by (apply is_dist_dprod; intros; apply H; auto).
  set (s := 4 * t / (b * b)). assert (Hs : 0 <= s) by (unfold s; apply Rmult_le_pos; [lra|left; apply Rinv_0_lt_compat; nra]).
  set (c := exp (- (2 * INR n * (t * t) / (b * b)))).
  apply (Rle_trans _ (expect (dprod n D) (fun o => c * exp (sumn n (fun i => s * (nth i o 0 - mean (D i)) - s * s * (b * b) / 8))))).
  - apply prob_le_expect; auto.
    + intros. apply Rmult_le_pos; left; apply exp_pos.
    + intros o p Ho Hp E. destruct (Rlt_dec _ _) as [Hlt|]; [|discriminate].
      unfold c. rewrite <- exp_plus. apply (Rle_trans _ (exp 0)); [rewrite exp_0; lra|]. 
      assert (Hx : 0 <= - (2 * INR n * (t * t) / (b * b)) + sumn n (fun i => s * (nth i o 0 - mean (D i)) - s * s * (b * b) / 8)).
      { rewrite sumn_minus, sumn_const. 
        rewrite sumn_scal, sumn_minus.
        unfold avg in Hlt. set (S1 := sumn n (fun i => nth i o 0)) in *. set (S2 := sumn n (fun i => mean (D i))) in *.
        assert (Hd : INR n * t <= S1 - S2).
        { apply Rlt_le. apply (Rmult_lt_reg_r (/ INR n)); [apply Rinv_0_lt_compat; auto|]. unfold Rdiv in Hlt.
          replace (INR n * t * / INR n) with t by (field; lra). lra. }
        apply (Rle_trans _ (- (2 * INR n * (t * t) / (b * b)) + (s * (INR n * t) - INR n * (s * s * (b * b) / 8)))).
        - right. unfold s. field. lra.
        - apply Rplus_le_compat_l. apply Rplus_le_compat_r. apply Rmult_le_compat_l; auto. }
      destruct Hx as [Hx| <-]; [left; apply exp_increasing; auto|lra].
  - rewrite expect_scal. rewrite <- (Rmult_1_r c) at 2. apply Rmult_le_compat_l; [left; apply exp_pos|].
    apply (expect_dprod_exp_le1 n D (fun i x => s * (x - mean (D i)) - s * s * (b * b) / 8)).
    + intros; apply H; auto.
    + intros i Hi. destruct (H i Hi). apply mgf_hoeffding; auto.
Qed.
