(** * P_MultiCons: consistency of the estimators for data of several loggers (C171). *)

From Coq Require Import Reals List ZArith Bool Lia Lra.
From Verif Require Import Num NpList M_Utils M_Estimators M_Slate M_Multi S_Base S_Prob S_Conc S_Estimators S_Env S_Tuning
  S_Multi L_Num L_Base L_Prob L_Estimators L_Unbiased L_Examples L_Multi L_Conc L_Conc3 P_Risk P_MultiVar P_Multi P_SlateSN.
From Verif Require Import S_Multi.
Import ListNotations.
Open Scope R_scope.

(** A number came back and it is not within [eps] of [v]. *)
Definition returned_off (r : res num) (v eps : R) : bool :=
  match r with Ok (Fin x) => if Rle_dec eps (Rabs (x - v)) then true else false | _ => false end.

(** Chebyshev's inequality from the average of the second moments. *)
Lemma chebyshev_avg {A} (D : nat -> dist A) n (g : nat -> option A -> R) B eps : (0 < n)%nat -> 0 < eps ->
  (forall i, (i < n)%nat -> is_dist (D i)) ->
  avg n (fun i => expect (D i) (fun x => g i (Some x) * g i (Some x))) <= B ->
  prob (dprod n D) (fun o => if Rle_dec eps (Rabs (avg n (fun i => g i (nth_error o i)) - avg n (fun i => expect (D i) (fun x => g i (Some x))))) then true else false)
  <= B / (INR n * (eps * eps)).
Proof.
  intros Hn He Hd HB. assert (HN : 0 < INR n) by (apply lt_0_INR; auto).
  assert (HD : is_dist (dprod n D)) by (apply is_dist_dprod; auto).
  set (m := fun i => expect (D i) (fun x => g i (Some x))).
  set (h := fun i y => g i y - m i).
  set (c := / (INR n * INR n * (eps * eps))). assert (Hc : 0 < c) by (apply Rinv_0_lt_compat; apply Rmult_lt_0_compat; nra).
  apply (Rle_trans _ (expect (dprod n D) (fun o => c * (sumn n (fun i => h i (nth_error o i)) * sumn n (fun i => h i (nth_error o i)))))).
  - apply prob_le_expect; auto.
    + intros. apply Rmult_le_pos; [lra|apply Rle_0_sqr].
    + intros o p Ho Hp E. destruct (Rle_dec _ _) as [Hle|]; [|discriminate].
      assert (Es : avg n (fun i => g i (nth_error o i)) - avg n m = sumn n (fun i => h i (nth_error o i)) / INR n).
      { unfold h. rewrite sumn_minus. unfold avg. field. lra. }
      fold m in Hle. rewrite Es in Hle. set (s := sumn n (fun i => h i (nth_error o i))) in *.
      assert (Hs2 : eps * eps <= (s / INR n) * (s / INR n)).
      { replace ((s / INR n) * (s / INR n)) with (Rabs (s / INR n) * Rabs (s / INR n)) by (rewrite <- Rabs_mult; apply Rabs_right; apply Rle_ge, Rle_0_sqr).
        apply Rmult_le_compat; lra. }
      apply (Rmult_le_reg_l (eps * eps)); [nra|].
      replace (eps * eps * (c * (s * s))) with (s / INR n * (s / INR n)) by (unfold c; field; split; lra). lra.
  - rewrite expect_scal. rewrite (second_moment D n h Hd).
    + apply (Rle_trans _ (c * (INR n * B))).
      * apply Rmult_le_compat_l; [lra|]. apply (Rle_trans _ (INR n * avg n (fun i => expect (D i) (fun x => g i (Some x) * g i (Some x))))); [|apply Rmult_le_compat_l; lra].
        unfold avg. replace (INR n * (sumn n (fun i => expect (D i) (fun x => g i (Some x) * g i (Some x))) / INR n))
          with (sumn n (fun i => expect (D i) (fun x => g i (Some x) * g i (Some x)))) by (field; lra).
        apply sumn_le. intros i Hi. unfold h, m. apply (variance_le_second (D i) (fun x => g i (Some x))). auto.
      * unfold c. right. field. split; lra.
    + intros i Hi. unfold h. rewrite expect_minus, expect_const by auto. unfold m. lra.
Qed.

(** The inverse-variance average is a convex combination of the strata's means. *)
Lemma ivavg_close n S g z y v eps : (0 < S)%nat -> 0 < eps ->
  (forall k, (k < S)%nat -> 0 < st_size n g k) -> (forall k, (k < S)%nat -> 0 < st_var n g z k) ->
  (forall k, (k < S)%nat -> Rabs (st_mean n g y k - v) < eps) ->
  Rabs (inverse_variance_average n S g z y - v) < eps.
Proof.
  intros HS He Hs Hv Hm. unfold inverse_variance_average.
  set (c := fun k => st_size n g k / st_var n g z k).
  assert (Hc : forall k, (k < S)%nat -> 0 < c k) by (intros k Hk; apply Rdiv_lt_0_compat; auto).
  assert (HC : 0 < sumn S c).
  { replace 0 with (sumn S (fun _ => 0)) by (apply sumn_zero; auto). apply sumn_strict; auto. }
  assert (E : sumn S (fun k => st_sum n g y k / st_var n g z k) = sumn S (fun k => c k * st_mean n g y k)).
  { apply sumn_ext. intros k Hk. unfold c, st_mean. specialize (Hs k Hk). specialize (Hv k Hk). field. lra. }
  rewrite E. change (sumn S (fun k => st_size n g k / st_var n g z k)) with (sumn S c).
  assert (E2 : sumn S (fun k => c k * st_mean n g y k) / sumn S c - v = sumn S (fun k => c k * (st_mean n g y k - v)) / sumn S c).
  { rewrite (sumn_ext S (fun k => c k * (st_mean n g y k - v)) (fun k => c k * st_mean n g y k - v * c k)) by (intros; ring).
    rewrite sumn_minus, sumn_scal. field. lra. }
  rewrite E2. unfold Rdiv. rewrite Rabs_mult, (Rabs_right (/ sumn S c)) by (apply Rle_ge, Rlt_le, Rinv_0_lt_compat; auto).
  apply (Rmult_lt_reg_r (sumn S c)); auto. rewrite Rmult_assoc, Rinv_l, Rmult_1_r by lra.
  eapply Rle_lt_trans; [apply sumn_abs|]. rewrite <- sumn_scal. apply sumn_strict; auto.
  intros k Hk. rewrite Rabs_mult, (Rabs_right (c k)) by (specialize (Hc k Hk); lra).
  specialize (Hc k Hk). specialize (Hm k Hk). nra.
Qed.

Definition seen {A} (T : A -> R) (y : option A) : R := match y with Some y => T y | None => 0 end.

Lemma avg_off {A} (D : nat -> dist A) n (T : A -> R) B mu eps : (0 < n)%nat -> 0 < eps ->
  (forall i, (i < n)%nat -> is_dist (D i)) -> avg n (fun i => expect (D i) T) = mu ->
  avg n (fun i => expect (D i) (fun x => T x * T x)) <= B ->
  prob (dprod n D) (fun o => if Rle_dec eps (Rabs (avg n (fun i => seen T (nth_error o i)) - mu)) then true else false)
  <= B / (INR n * (eps * eps)).
Proof.
  intros Hn He Hd Hmu HB. rewrite <- Hmu. exact (chebyshev_avg D n (fun _ => seen T) B eps Hn He Hd HB).
Qed.

Lemma stratum_off {A} (D : nat -> dist A) n g k (T : A -> R) B mu eps : (0 < n)%nat -> 0 < eps -> 0 < st_size n g k ->
  (forall i, (i < n)%nat -> is_dist (D i)) -> (forall i, (i < n)%nat -> expect (D i) T = mu) ->
  (forall i, (i < n)%nat -> expect (D i) (fun x => T x * T x) <= B) ->
  prob (dprod n D) (fun o => if Rle_dec eps (Rabs (st_mean n g (fun i => seen T (nth_error o i)) k - mu)) then true else false)
  <= B / (st_size n g k * (eps * eps)).
Proof.
  intros Hn He Hs Hd Hmu HB. assert (HN : 0 < INR n) by (apply lt_0_INR; auto).
  set (N := st_size n g k) in *. set (c := INR n / N). assert (Hc : 0 < c) by (apply Rdiv_lt_0_compat; auto).
  set (G := fun i y => c * (member g k i * @seen A T y)).
  assert (A1 : forall z, avg n (fun i => c * (member g k i * z i)) = st_mean n g z k).
  { intros z. rewrite avg_scal. unfold st_mean, st_sum, avg, c. fold N. field. split; lra. }
  assert (Mem : forall i, member g k i * member g k i = member g k i).
  { intros i. unfold member. destruct (Nat.eq_dec (g i) k); ring. }
  pose proof (chebyshev_avg D n G (c * B) eps Hn He Hd) as C.
  assert (E1 : avg n (fun i => expect (D i) (fun x => G i (Some x))) = mu).
  { rewrite (avg_ext n _ (fun i => c * (member g k i * mu))).
    - rewrite A1. unfold st_mean, st_sum. rewrite sumn_scal_r. unfold N, st_size in *. field. lra.
    - intros i Hi. unfold G. cbn [seen]. rewrite (expect_ext_all _ _ (fun x => (c * member g k i) * T x)) by (intros; ring).
      rewrite expect_scal, Hmu by auto. ring. }
  rewrite E1 in C. eapply Rle_trans; [|eapply Rle_trans; [apply C|]].
  - right. unfold prob. apply expect_ext_all. intros o. unfold G. rewrite (A1 (fun i => seen T (nth_error o i))). reflexivity.
  - apply (Rle_trans _ (avg n (fun i => c * (member g k i * (c * B))))).
    + apply avg_le; auto. intros i Hi. unfold G. cbn [seen].
      rewrite (expect_ext_all _ _ (fun x => (c * c * member g k i) * (T x * T x))).
      2:{ intros x. transitivity (c * c * (member g k i * member g k i) * (T x * T x)); [ring|rewrite Mem; ring]. }
      rewrite expect_scal. replace (c * (member g k i * (c * B))) with (c * c * member g k i * B) by ring.
      apply Rmult_le_compat_l; [|apply HB; auto]. apply Rmult_le_pos; [nra|]. unfold member. destruct (Nat.eq_dec (g i) k); lra.
    + right. rewrite (A1 (fun _ => c * B)). unfold st_mean, st_sum. rewrite sumn_scal_r. fold (st_size n g k). fold N. field. lra.
  - right. unfold c. field. repeat split; lra.
Qed.

Lemma weight_square pe p W : 0 <= pe -> 0 <= p -> pe <= W * p -> pe / p * (pe / p) * p <= W * pe.
Proof.
  intros H0 Hp HW. destruct (Rle_lt_or_eq_dec 0 pe H0) as [Hpos|Hz].
  - assert (0 < p) by (destruct (Rle_lt_or_eq_dec 0 p Hp) as [|E]; auto; rewrite <- E in HW; lra).
    replace (pe / p * (pe / p) * p) with (pe / p * pe) by (field; lra). apply Rmult_le_compat_r; auto.
    apply (Rmult_le_reg_r p); auto. unfold Rdiv. rewrite Rmult_assoc, Rinv_l by lra. lra.
  - rewrite <- Hz. unfold Rdiv. right. ring.
Qed.
Lemma weight_cancels pe p W : 0 <= pe -> pe <= W * p -> p * (pe / p) = pe.
Proof.
  intros H0 HW. destruct (Rle_lt_or_eq_dec 0 pe H0) as [Hpos|Hz].
  - assert (p <> 0) by (intros ->; lra). field. auto.
  - rewrite <- Hz. unfold Rdiv. ring.
Qed.

Section Moments.
  Context {X : Type} (m : menv X) (Hm : menv_ok m) (q : X -> nat -> R) (W C : R).
  Let s := me_s m.
  Hypothesis HC : forall x a r p, (a < me_K m)%nat -> In (r, p) (me_rd m x s a) -> p <> 0 -> Rabs (r - q x a) <= C.
  Let D i := round_dist (env_of m) i.
  Definition own_corr (y : X * nat * nat * R) : R := let '((x, k), a, r) := y in me_pe m x a s / me_pb m k x s a * (r - q x a).
  Definition bal_corr (y : X * nat * nat * R) : R := let '((x, _), a, r) := y in me_pe m x a s / avg_pscore m (x, 0%nat) s a * (r - q x a).
  Definition corr_mean : R := expect (me_ctx m) (fun x => sumn (me_K m) (fun a => me_pe m x a s * expect (me_rd m x s a) (fun r => r - q x a))).

  Lemma square_bound x a w : (a < me_K m)%nat -> expect (me_rd m x s a) (fun r => w * (r - q x a) * (w * (r - q x a))) <= w * w * (C * C).
  Proof.
    intros Ha. rewrite <- (expect_const (me_rd m x s a) (w * w * (C * C))) by apply Hm. apply expect_le_supp; [apply Hm|].
    intros r p Hr Hp. specialize (HC x a r p Ha Hr Hp).
    assert (0 <= C) by (eapply Rle_trans; [apply Rabs_pos|exact HC]).
    replace (w * (r - q x a) * (w * (r - q x a))) with (w * w * ((r - q x a) * (r - q x a))) by ring.
    apply Rmult_le_compat_l; [apply Rle_0_sqr|]. apply sq_le; auto.
  Qed.

  Lemma total x : sumn (me_K m) (fun a => W * (C * C) * me_pe m x a s) = W * (C * C).
  Proof. rewrite sumn_scal. unfold s. rewrite (mo_pe1 m Hm). ring. Qed.

  Section Own.
    Hypothesis HW : forall i x a, (i < me_n m)%nat -> (a < me_K m)%nat -> me_pe m x a s <= W * me_pb m (me_g m i) x s a.
    Lemma own_corr_mean i : (i < me_n m)%nat -> expect (D i) own_corr = corr_mean.
    Proof.
      intros Hi. unfold own_corr, D. rewrite (expect_mround m i (fun x k a r => me_pe m x a s / me_pb m k x s a * (r - q x a))).
      unfold corr_mean. apply expect_ext_all. intros x. apply sumn_ext. intros a Ha. fold s.
      rewrite expect_scal. rewrite <- (weight_cancels (me_pe m x a s) (me_pb m (me_g m i) x s a) W) at 2; [ring|apply Hm; auto|auto].
    Qed.
    Lemma own_corr_square i : (i < me_n m)%nat -> expect (D i) (fun y => own_corr y * own_corr y) <= W * (C * C).
    Proof.
      intros Hi.
      rewrite (expect_ext_all _ _ (fun y => let '((x, k), a, r) := y in
        me_pe m x a s / me_pb m k x s a * (r - q x a) * (me_pe m x a s / me_pb m k x s a * (r - q x a)))) by (intros [[[x k] a] r]; reflexivity).
      unfold D. rewrite (expect_mround m i (fun x k a r => me_pe m x a s / me_pb m k x s a * (r - q x a) * (me_pe m x a s / me_pb m k x s a * (r - q x a)))).
      rewrite <- (expect_const (me_ctx m) (W * (C * C))) by apply Hm. apply expect_le_supp; [apply Hm|]. intros x p _ _.
      rewrite <- (total x). apply sumn_le. intros a Ha. fold s. set (w := me_pe m x a s / me_pb m (me_g m i) x s a).
      apply (Rle_trans _ (w * w * (C * C) * me_pb m (me_g m i) x s a)).
      - apply Rmult_le_compat_r; [apply Hm; auto|]. apply square_bound; auto.
      - pose proof (weight_square (me_pe m x a s) (me_pb m (me_g m i) x s a) W ltac:(apply Hm; auto) ltac:(apply Hm; auto) (HW i x a Hi Ha)) as H. fold w in H.
        pose proof (Rle_0_sqr C) as HC2. unfold Rsqr in HC2.
        replace (w * w * (C * C) * me_pb m (me_g m i) x s a) with (C * C * (w * w * me_pb m (me_g m i) x s a)) by ring.
        replace (W * (C * C) * me_pe m x a s) with (C * C * (W * me_pe m x a s)) by ring. apply Rmult_le_compat_l; auto.
    Qed.
  End Own.

  Section Bal.
    Hypothesis HW : forall x a, (a < me_K m)%nat -> me_pe m x a s <= W * avg_pscore m (x, 0%nat) s a.
    Lemma avg_pscore_nonneg x a : (a < me_K m)%nat -> 0 <= avg_pscore m (x, 0%nat) s a.
    Proof.
      intros Ha. unfold avg_pscore. apply sumn_nonneg. intros k _. apply Rmult_le_pos; [|apply Hm; auto].
      unfold share. apply Rmult_le_pos; [|left; apply Rinv_0_lt_compat, lt_0_INR, Hm]. apply sumn_nonneg. intros i _. unfold member. destruct (Nat.eq_dec _ _); lra.
    Qed.
    Lemma bal_corr_mean : avg (me_n m) (fun i => expect (D i) bal_corr) = corr_mean.
    Proof.
      unfold bal_corr, D. rewrite (pooled_mean m Hm (fun x a r => me_pe m x a s / avg_pscore m (x, 0%nat) s a * (r - q x a))).
      unfold corr_mean. apply expect_ext_all. intros x. apply sumn_ext. intros a Ha. fold s.
      rewrite expect_scal. rewrite <- (weight_cancels (me_pe m x a s) (avg_pscore m (x, 0%nat) s a) W) at 2; [ring|apply Hm; auto|auto].
    Qed.
    Lemma bal_corr_square : avg (me_n m) (fun i => expect (D i) (fun y => bal_corr y * bal_corr y)) <= W * (C * C).
    Proof.
      rewrite (avg_ext _ _ (fun i => expect (D i) (fun y => let '((x, _), a, r) := y in
        me_pe m x a s / avg_pscore m (x, 0%nat) s a * (r - q x a) * (me_pe m x a s / avg_pscore m (x, 0%nat) s a * (r - q x a))))).
      2:{ intros i Hi. apply expect_ext_all. intros [[[x k] a] r]; reflexivity. }
      unfold D. rewrite (pooled_mean m Hm (fun x a r => me_pe m x a s / avg_pscore m (x, 0%nat) s a * (r - q x a) * (me_pe m x a s / avg_pscore m (x, 0%nat) s a * (r - q x a)))).
      rewrite <- (expect_const (me_ctx m) (W * (C * C))) by apply Hm. apply expect_le_supp; [apply Hm|]. intros x p _ _.
      rewrite <- (total x). apply sumn_le. intros a Ha. fold s. set (w := me_pe m x a s / avg_pscore m (x, 0%nat) s a).
      pose proof (avg_pscore_nonneg x a Ha) as H0.
      apply (Rle_trans _ (avg_pscore m (x, 0%nat) s a * (w * w * (C * C)))).
      - apply Rmult_le_compat_l; auto. apply square_bound; auto.
      - pose proof (weight_square (me_pe m x a s) (avg_pscore m (x, 0%nat) s a) W ltac:(apply Hm; auto) H0 (HW x a Ha)) as H. fold w in H.
        pose proof (Rle_0_sqr C) as HC2. unfold Rsqr in HC2.
        replace (avg_pscore m (x, 0%nat) s a * (w * w * (C * C))) with (C * C * (w * w * avg_pscore m (x, 0%nat) s a)) by ring.
        replace (W * (C * C) * me_pe m x a s) with (C * C * (W * me_pe m x a s)) by ring. apply Rmult_le_compat_l; auto.
    Qed.
  End Bal.
End Moments.

Lemma st_mean_ext n g z z' k : (forall i, (i < n)%nat -> z i = z' i) -> st_mean n g z k = st_mean n g z' k.
Proof. intros H. unfold st_mean, st_sum. f_equal. apply sumn_ext. intros i Hi. rewrite H by auto. reflexivity. Qed.

Section Logs.
  Context {X : Type} (m : menv X) (Hm : menv_ok m) (qh : X -> nat -> nat -> R).
  Let s := me_s m.
  Let q x a := qh x a s.
  Definition dm_term (y : X * nat * nat * R) : R := let '((x, _), _, _) := y in sumn (me_K m) (fun a => qh x a s * me_pe m x a s).
  Let own o := log_of (env_of m) (own_pscore m) (fun xk => qh (fst xk)) o.
  Let pooled o := log_of (env_of m) (avg_pscore m) (fun xk => qh (fst xk)) o.

  Lemma log_shape o p i : In (o, p) (log_dist (env_of m)) -> p <> 0 -> (i < me_n m)%nat -> exists x k a r, nth_error o i = Some ((x, k), a, r).
  Proof. intros Ho Hp Hi. destruct (In_dprod_opt _ _ _ _ Ho Hp i Hi) as ([[[x k] a] r] & _ & E & _). eauto. Qed.

  Lemma own_accepted o p : In (o, p) (log_dist (env_of m)) -> p <> 0 -> accepted (own o).
  Proof. intros. eapply accepted_multi; eauto. Qed.
  Lemma pooled_accepted o p : In (o, p) (log_dist (env_of m)) -> p <> 0 -> accepted (pooled o).
  Proof. intros. eapply accepted_multi; eauto. intros. eapply avg_pscore_pos; eauto. Qed.

  Lemma own_ipw o p i : In (o, p) (log_dist (env_of m)) -> p <> 0 -> (i < me_n m)%nat ->
    ipw_term None (own o) i = seen (own_corr m (fun _ _ => 0)) (nth_error o i).
  Proof.
    intros Ho Hp Hi. destruct (log_shape o p i Ho Hp Hi) as (x & k & a & r & E). unfold ipw_term, weight, clip, own.
    cbn [lg_r lg_pi lg_a lg_p lg_pos log_of]. rewrite E. cbn [env_of ev_pe ev_pos fst seen own_corr]. unfold own_pscore. cbn [fst snd]. ring.
  Qed.
  Lemma pooled_ipw o p i : In (o, p) (log_dist (env_of m)) -> p <> 0 -> (i < me_n m)%nat ->
    ipw_term None (pooled o) i = seen (bal_corr m (fun _ _ => 0)) (nth_error o i).
  Proof.
    intros Ho Hp Hi. destruct (log_shape o p i Ho Hp Hi) as (x & k & a & r & E). unfold ipw_term, weight, clip, pooled.
    cbn [lg_r lg_pi lg_a lg_p lg_pos log_of]. rewrite E. cbn [env_of ev_pe ev_pos fst seen bal_corr]. unfold avg_pscore. cbn [fst snd]. ring.
  Qed.
  Lemma own_dr o p i : In (o, p) (log_dist (env_of m)) -> p <> 0 -> (i < me_n m)%nat ->
    dr_corr None (own o) i = seen (own_corr m q) (nth_error o i) /\ q_pi (own o) i = seen dm_term (nth_error o i).
  Proof.
    intros Ho Hp Hi. destruct (log_shape o p i Ho Hp Hi) as (x & k & a & r & E). split.
    - unfold dr_corr, weight, q_at, clip, own. cbn [lg_r lg_q lg_pi lg_a lg_p lg_pos log_of]. rewrite E. reflexivity.
    - unfold own. rewrite (q_pi_log (env_of m) (env_of_ok m Hm) _ _ _ _ _ _ _ Hi E), E. reflexivity.
  Qed.
  Lemma pooled_dr o p i : In (o, p) (log_dist (env_of m)) -> p <> 0 -> (i < me_n m)%nat ->
    dr_corr None (pooled o) i = seen (bal_corr m q) (nth_error o i) /\ q_pi (pooled o) i = seen dm_term (nth_error o i).
  Proof.
    intros Ho Hp Hi. destruct (log_shape o p i Ho Hp Hi) as (x & k & a & r & E). split.
    - unfold dr_corr, weight, q_at, clip, pooled. cbn [lg_r lg_q lg_pi lg_a lg_p lg_pos log_of]. rewrite E. reflexivity.
    - unfold pooled. rewrite (q_pi_log (env_of m) (env_of_ok m Hm) _ _ _ _ _ _ _ Hi E), E. reflexivity.
  Qed.

  Definition dm_mean : R := expect (me_ctx m) (fun x => sumn (me_K m) (fun a => qh x a s * me_pe m x a s)).
  Lemma split_value : dm_mean + corr_mean m q = me_value m.
  Proof. exact (value_split m Hm q). Qed.
  Lemma ipw_mean : corr_mean m (fun _ _ => 0) = me_value m.
  Proof.
    unfold corr_mean, me_value. apply expect_ext_all. intros x. apply sumn_ext. intros a _. f_equal. apply expect_ext_all. intros. ring.
  Qed.
  Lemma mround_dist i : (i < me_n m)%nat -> is_dist (round_dist (env_of m) i).
  Proof. intros; apply multi_dist; auto. Qed.
  Lemma logs_dist : is_dist (log_dist (env_of m)).
  Proof. apply is_dist_dprod. apply mround_dist. Qed.

  Lemma dm_off Qm eps : 0 < eps -> (forall x a, (a < me_K m)%nat -> Rabs (qh x a s) <= Qm) ->
    prob (log_dist (env_of m)) (fun o => if Rle_dec eps (Rabs (avg (me_n m) (fun i => seen dm_term (nth_error o i)) - dm_mean)) then true else false)
    <= Qm * Qm / (INR (me_n m) * (eps * eps)).
  Proof.
    intros Heps HQ. apply (avg_off (round_dist (env_of m)) (me_n m) dm_term); auto; try apply Hm; [apply mround_dist| |].
    - rewrite (avg_ext _ _ (fun _ => dm_mean)); [apply avg_const, Hm|]. intros i Hi. exact (base_mean m Hm q i Hi).
    - rewrite <- (avg_const (me_n m) (Qm * Qm)) by apply Hm. apply avg_le; [apply Hm|]. intros i Hi.
      rewrite <- (expect_const (round_dist (env_of m) i) (Qm * Qm)) by (apply mround_dist; auto). apply expect_le_supp; [apply mround_dist; auto|].
      intros [[[x k] a] r] p _ _. unfold dm_term.
      assert (B : Rabs (sumn (me_K m) (fun a => qh x a s * me_pe m x a s)) <= Qm).
      { eapply Rle_trans; [apply sumn_abs|]. apply (Rle_trans _ (sumn (me_K m) (fun a => Qm * me_pe m x a s))).
        - apply sumn_le. intros b Hb. rewrite Rabs_mult, (Rabs_right (me_pe m x b s)) by (apply Rle_ge, Hm; auto). apply Rmult_le_compat_r; [apply Hm; auto|auto].
        - rewrite sumn_scal. rewrite (mo_pe1 m Hm). lra. }
      apply sq_le; auto. eapply Rle_trans; [apply Rabs_pos|exact B].
  Qed.
End Logs.

Lemma two_parts a b x y eps : eps <= Rabs (x + y - (a + b)) -> eps / 2 <= Rabs (x - a) \/ eps / 2 <= Rabs (y - b).
Proof.
  intros H. destruct (Rle_dec (eps / 2) (Rabs (x - a))) as [|N1]; [left; auto|]. destruct (Rle_dec (eps / 2) (Rabs (y - b))) as [|N2]; [right; auto|].
  exfalso. apply Rnot_le_lt in N1, N2. replace (x + y - (a + b)) with ((x - a) + (y - b)) in H by ring. pose proof (Rabs_triang (x - a) (y - b)). lra.
Qed.

Lemma prob_within {A} (d : dist A) ev ev' B : is_dist d -> (forall a p, In (a, p) d -> p <> 0 -> ev a = true -> ev' a = true) -> prob d ev' <= B -> prob d ev <= B.
Proof.
  intros Hd H HB. pose proof (prob_union d ev ev' (fun _ => false) Hd) as U.
  assert (Z : prob d (fun _ : A => false) = 0) by (apply prob_impossible; auto).
  assert (U' : prob d ev <= prob d ev' + prob d (fun _ => false)) by (apply U; intros a p Ha Hp E; left; eauto). lra.
Qed.

(** Naive and balanced IPW. *)
Theorem C171_ipw_consistent : forall X (m : menv X) (qh : X -> nat -> nat -> R) arg W Rm eps, menv_ok m -> 0 < eps ->
  (forall pt q o, position_arg (log_of (env_of m) pt q o) arg) ->
  (forall x a r p, (a < me_K m)%nat -> In (r, p) (me_rd m x (me_s m) a) -> p <> 0 -> Rabs r <= Rm) ->
  ((forall i x a, (i < me_n m)%nat -> (a < me_K m)%nat -> me_pe m x a (me_s m) <= W * me_pb m (me_g m i) x (me_s m) a) ->
   prob (log_dist (env_of m)) (fun o => let l := log_of (env_of m) (own_pscore m) (fun xk => qh (fst xk)) o in
     estimate_off (mn_ipw_value PInf false (rewards l) (actions l) (policy l) (Some (pscores l)) arg None) (me_value m) eps)
   <= W * (Rm * Rm) / (INR (me_n m) * (eps * eps))) /\
  ((forall x a, (a < me_K m)%nat -> me_pe m x a (me_s m) <= W * avg_pscore m (x, 0%nat) (me_s m) a) ->
   prob (log_dist (env_of m)) (fun o => let l := log_of (env_of m) (avg_pscore m) (fun xk => qh (fst xk)) o in
     estimate_off (mb_ipw_value PInf false (rewards l) (actions l) (policy l) (Some (pscores l)) arg None) (me_value m) eps)
   <= W * (Rm * Rm) / (INR (me_n m) * (eps * eps))).
Proof.
  intros X m qh arg W Rm eps Hm Heps Harg HR.
  assert (HR0 : forall x a r p, (a < me_K m)%nat -> In (r, p) (me_rd m x (me_s m) a) -> p <> 0 -> Rabs (r - (fun _ _ => 0) x a) <= Rm).
  { intros. rewrite Rminus_0_r. eauto. }
  split; intros HW.
  - eapply prob_within; [apply logs_dist; auto| |apply (avg_off (round_dist (env_of m)) (me_n m) (own_corr m (fun _ _ => 0)) (W * (Rm * Rm)) (me_value m) eps)].
    + intros o p Ho Hp E. cbv zeta in E.
      destruct (C40_naive_value _ None false (Some (pscores (log_of (env_of m) (own_pscore m) (fun xk => qh (fst xk)) o))) None arg
        (own_accepted m Hm qh o p Ho Hp) (Harg _ _ _) eq_refl) as [V _].
      cbn [lam_num] in V. rewrite V in E. cbn [estimate_off] in E. cbn [lg_n log_of ev_n env_of] in E.
      rewrite (avg_ext _ _ (fun i => seen (own_corr m (fun _ _ => 0)) (nth_error o i))) in E by (intros; eapply own_ipw; eauto). exact E.
    + apply Hm.
    + auto.
    + apply mround_dist; auto.
    + rewrite (avg_ext _ _ (fun _ => me_value m)); [apply avg_const, Hm|]. intros i Hi. rewrite <- ipw_mean. apply (own_corr_mean m Hm _ W HW i Hi).
    + rewrite <- (avg_const (me_n m) (W * (Rm * Rm))) by apply Hm. apply avg_le; [apply Hm|]. intros i Hi. apply (own_corr_square m Hm _ W Rm HR0 HW i Hi).
  - eapply prob_within; [apply logs_dist; auto| |apply (avg_off (round_dist (env_of m)) (me_n m) (bal_corr m (fun _ _ => 0)) (W * (Rm * Rm)) (me_value m) eps)].
    + intros o p Ho Hp E. cbv zeta in E.
      destruct (C40_naive_value _ None false (Some (pscores (log_of (env_of m) (avg_pscore m) (fun xk => qh (fst xk)) o))) None arg
        (pooled_accepted m Hm qh o p Ho Hp) (Harg _ _ _) eq_refl) as [V _].
      cbn [lam_num] in V. change (mb_ipw_value PInf false) with (mn_ipw_value PInf false) in E. rewrite V in E. cbn [estimate_off] in E. cbn [lg_n log_of ev_n env_of] in E.
      rewrite (avg_ext _ _ (fun i => seen (bal_corr m (fun _ _ => 0)) (nth_error o i))) in E by (intros; eapply pooled_ipw; eauto). exact E.
    + apply Hm.
    + auto.
    + apply mround_dist; auto.
    + rewrite <- ipw_mean. apply (bal_corr_mean m Hm _ W HW).
    + apply (bal_corr_square m Hm _ W Rm HR0 HW).
Qed.

(** Naive and balanced DR with a model whose values are bounded. *)
Theorem C171_dr_consistent : forall X (m : menv X) (qh : X -> nat -> nat -> R) arg W C Qm eps, menv_ok m -> 0 < eps ->
  (forall pt q o, position_arg (log_of (env_of m) pt q o) arg) ->
  (forall x a r p, (a < me_K m)%nat -> In (r, p) (me_rd m x (me_s m) a) -> p <> 0 -> Rabs (r - qh x a (me_s m)) <= C) ->
  (forall x a, (a < me_K m)%nat -> Rabs (qh x a (me_s m)) <= Qm) ->
  ((forall i x a, (i < me_n m)%nat -> (a < me_K m)%nat -> me_pe m x a (me_s m) <= W * me_pb m (me_g m i) x (me_s m) a) ->
   prob (log_dist (env_of m)) (fun o => let l := log_of (env_of m) (own_pscore m) (fun xk => qh (fst xk)) o in
     estimate_off (mn_dr_value PInf false (rewards l) (actions l) (policy l) (model l) (Some (pscores l)) arg None) (me_value m) eps)
   <= 4 * (Qm * Qm + W * (C * C)) / (INR (me_n m) * (eps * eps))) /\
  ((forall x a, (a < me_K m)%nat -> me_pe m x a (me_s m) <= W * avg_pscore m (x, 0%nat) (me_s m) a) ->
   prob (log_dist (env_of m)) (fun o => let l := log_of (env_of m) (avg_pscore m) (fun xk => qh (fst xk)) o in
     estimate_off (mb_dr_value PInf false (rewards l) (actions l) (policy l) (model l) (Some (pscores l)) arg None) (me_value m) eps)
   <= 4 * (Qm * Qm + W * (C * C)) / (INR (me_n m) * (eps * eps))).
Proof.
  intros X m qh arg W C Qm eps Hm Heps Harg HC HQ. assert (HN : 0 < INR (me_n m)) by (apply lt_0_INR, Hm).
  assert (H2 : 0 < eps / 2) by lra.
  pose proof (dm_off m Hm qh Qm (eps / 2) H2 HQ) as DM.
  assert (EB : 4 * (Qm * Qm + W * (C * C)) / (INR (me_n m) * (eps * eps))
     = Qm * Qm / (INR (me_n m) * (eps / 2 * (eps / 2))) + W * (C * C) / (INR (me_n m) * (eps / 2 * (eps / 2)))) by (field; lra).
  rewrite EB. split; intros HW.
  - pose proof (avg_off (round_dist (env_of m)) (me_n m) (own_corr m (fun x a => qh x a (me_s m))) (W * (C * C)) (corr_mean m (fun x a => qh x a (me_s m))) (eps / 2)
      (mo_n m Hm) H2 (mround_dist m Hm)) as CO.
    eapply Rle_trans; [|apply Rplus_le_compat; [exact DM|apply CO]].
    + apply prob_union; [apply logs_dist; auto|]. intros o p Ho Hp E. cbv zeta in E.
      destruct (C40_naive_value _ None false (Some (pscores (log_of (env_of m) (own_pscore m) (fun xk => qh (fst xk)) o))) None arg
        (own_accepted m Hm qh o p Ho Hp) (Harg _ _ _) eq_refl) as [_ V].
      cbn [lam_num] in V. rewrite V in E. cbn [estimate_off] in E. cbn [lg_n log_of ev_n env_of] in E. unfold dr_term in E.
      rewrite (avg_ext _ _ (fun i => seen (dm_term m qh) (nth_error o i) + seen (own_corr m (fun x a => qh x a (me_s m))) (nth_error o i))) in E.
      2:{ intros i Hi. destruct (own_dr m Hm qh o p i Ho Hp Hi) as [E1 E2]. rewrite <- E1, <- E2. reflexivity. }
      rewrite avg_plus, <- (split_value m Hm qh) in E. destruct (Rle_dec eps _) as [Hle|]; [|discriminate].
      apply two_parts in Hle. destruct Hle as [Hle|Hle]; [left|right].
      * destruct (Rle_dec _ _); [reflexivity|]. contradiction.
      * match goal with |- (if ?d then _ else _) = _ => destruct d as [|N] end; [reflexivity|]. elim N. exact Hle.
    + rewrite (avg_ext _ _ (fun _ => corr_mean m (fun x a => qh x a (me_s m)))); [apply avg_const, Hm|]. intros i Hi. apply (own_corr_mean m Hm _ W HW i Hi).
    + rewrite <- (avg_const (me_n m) (W * (C * C))) by apply Hm. apply avg_le; [apply Hm|]. intros i Hi. apply (own_corr_square m Hm _ W C HC HW i Hi).
  - pose proof (avg_off (round_dist (env_of m)) (me_n m) (bal_corr m (fun x a => qh x a (me_s m))) (W * (C * C)) (corr_mean m (fun x a => qh x a (me_s m))) (eps / 2)
      (mo_n m Hm) H2 (mround_dist m Hm)) as CO.
    eapply Rle_trans; [|apply Rplus_le_compat; [exact DM|apply CO]].
    + apply prob_union; [apply logs_dist; auto|]. intros o p Ho Hp E. cbv zeta in E.
      destruct (C40_naive_value _ None false (Some (pscores (log_of (env_of m) (avg_pscore m) (fun xk => qh (fst xk)) o))) None arg
        (pooled_accepted m Hm qh o p Ho Hp) (Harg _ _ _) eq_refl) as [_ V].
      cbn [lam_num] in V. change (mb_dr_value PInf false) with (mn_dr_value PInf false) in E.
      rewrite V in E. cbn [estimate_off] in E. cbn [lg_n log_of ev_n env_of] in E. unfold dr_term in E.
      rewrite (avg_ext _ _ (fun i => seen (dm_term m qh) (nth_error o i) + seen (bal_corr m (fun x a => qh x a (me_s m))) (nth_error o i))) in E.
      2:{ intros i Hi. destruct (pooled_dr m Hm qh o p i Ho Hp Hi) as [E1 E2]. rewrite <- E1, <- E2. reflexivity. }
      rewrite avg_plus, <- (split_value m Hm qh) in E. destruct (Rle_dec eps _) as [Hle|]; [|discriminate].
      apply two_parts in Hle. destruct Hle as [Hle|Hle]; [left|right].
      * destruct (Rle_dec _ _); [reflexivity|]. contradiction.
      * match goal with |- (if ?d then _ else _) = _ => destruct d as [|N] end; [reflexivity|]. elim N. exact Hle.
    + apply (bal_corr_mean m Hm _ W HW).
    + apply (bal_corr_square m Hm _ W C HC HW).
Qed.

(** Either every stratum's contributions vary or one stratum's are constant. *)
Lemma variances n g S z : (0 < n)%nat -> contiguous n g S ->
  (forall k, (k < S)%nat -> 0 < st_var n g z k) \/ (exists k, (k < S)%nat /\ st_var n g z k = 0).
Proof.
  intros Hn [_ Hc]. assert (P : forall k, (k < S)%nat -> 0 <= st_var n g z k).
  { intros k Hk. destruct (Hc k Hk) as (i & Hi & E). apply st_var_nonneg, (st_size_pos n g k i); auto. }
  clear Hc. induction S as [|S IH].
  - left. intros; lia.
  - destruct IH as [H|(k & Hk & E)]; [intros; apply P; lia| |right; exists k; split; auto].
    destruct (Rle_lt_or_eq_dec 0 _ (P S ltac:(lia))) as [Hp|Hz]; [|right; exists S; auto].
    left. intros k Hk. destruct (Nat.eq_dec k S) as [->|]; auto. apply H. lia.
Qed.

(** Weighted IPW and DR: every call returns a number or NaN, NaN exactly when the contributions of some stratum are all equal;
    a returned number is far from the value only if the mean of some stratum is. *)
Theorem C171_weighted_ipw_consistent : forall X (m : menv X) (qh : X -> nat -> nat -> R) arg W Rm eps, menv_ok m -> 0 < eps ->
  contiguous (me_n m) (me_g m) (me_S m) ->
  (forall pt q o, position_arg (log_of (env_of m) pt q o) arg) ->
  (forall x a r p, (a < me_K m)%nat -> In (r, p) (me_rd m x (me_s m) a) -> p <> 0 -> Rabs r <= Rm) ->
  (forall i x a, (i < me_n m)%nat -> (a < me_K m)%nat -> me_pe m x a (me_s m) <= W * me_pb m (me_g m i) x (me_s m) a) ->
  let call o := let l := log_of (env_of m) (own_pscore m) (fun xk => qh (fst xk)) o in
    mw_ipw_value PInf false (rewards l) (actions l) (policy l) (labels l (me_g m)) (Some (pscores l)) arg None in
  (forall o p, In (o, p) (log_dist (env_of m)) -> p <> 0 ->
     (exists v, call o = Ok (Fin v)) \/
     (call o = Ok NaN /\ exists k, (k < me_S m)%nat /\
        forall i j, (i < me_n m)%nat -> (j < me_n m)%nat -> me_g m i = k -> me_g m j = k ->
          ipw_term None (log_of (env_of m) (own_pscore m) (fun xk => qh (fst xk)) o) i
          = ipw_term None (log_of (env_of m) (own_pscore m) (fun xk => qh (fst xk)) o) j)) /\
  prob (log_dist (env_of m)) (fun o => returned_off (call o) (me_value m) eps)
  <= sumn (me_S m) (fun k => W * (Rm * Rm) / (st_size (me_n m) (me_g m) k * (eps * eps))).
Proof.
  intros X m qh arg W Rm eps Hm Heps Hc Harg HR HW call.
  assert (HR0 : forall x a r p, (a < me_K m)%nat -> In (r, p) (me_rd m x (me_s m) a) -> p <> 0 -> Rabs (r - (fun _ _ => 0) x a) <= Rm).
  { intros. rewrite Rminus_0_r. eauto. }
  assert (Hsz : forall k, (k < me_S m)%nat -> 0 < st_size (me_n m) (me_g m) k).
  { intros k Hk. destruct Hc as [_ Hc]. destruct (Hc k Hk) as (i & Hi & E). apply (st_size_pos _ _ _ i); auto. }
  assert (HS : (0 < me_S m)%nat) by (eapply contiguous_pos; [apply Hm|exact Hc]).
  assert (Cases : forall o p, In (o, p) (log_dist (env_of m)) -> p <> 0 ->
     let z := ipw_term None (log_of (env_of m) (own_pscore m) (fun xk => qh (fst xk)) o) in
     ((forall k, (k < me_S m)%nat -> 0 < st_var (me_n m) (me_g m) z k) /\ call o = Ok (Fin (inverse_variance_average (me_n m) (me_S m) (me_g m) z z))) \/
     (exists k, (k < me_S m)%nat /\ st_var (me_n m) (me_g m) z k = 0 /\ call o = Ok NaN)).
  { intros o p Ho Hp z. pose proof (own_accepted m Hm qh o p Ho Hp) as Ha.
    destruct (variances (me_n m) (me_g m) (me_S m) z (mo_n m Hm) Hc) as [Hv|(k & Hk & Hz)].
    - left. split; [exact Hv|]. unfold call. cbv zeta.
      exact (C40_weighted_ipw_value _ (me_g m) (me_S m) None false _ None arg Ha (Harg _ _ _) eq_refl Hc Hv).
    - right. exists k. split; [exact Hk|]. split; [exact Hz|].
      destruct (C41_zero_variance _ (me_g m) (me_S m) None false _ None arg k Ha (Harg _ _ _) eq_refl Hc Hk) as [N _]. exact (N Hz). }
  split.
  - intros o p Ho Hp. destruct (Cases o p Ho Hp) as [[_ E]|(k & Hk & Hz & E)]; [left; eauto|right]. split; [exact E|]. exists k. split; [exact Hk|].
    set (z := ipw_term _ _) in *. intros i j Hi Hj Gi Gj.
    assert (Q : forall i, (i < me_n m)%nat -> me_g m i = k -> z i = st_mean (me_n m) (me_g m) z k).
    { intros i' Hi' Gi'. unfold st_var in Hz. specialize (Hsz k Hk).
      assert (S0 : st_sum (me_n m) (me_g m) (fun i => (z i - st_mean (me_n m) (me_g m) z k) * (z i - st_mean (me_n m) (me_g m) z k)) k = 0).
      { apply (Rmult_eq_reg_r (/ st_size (me_n m) (me_g m) k)); [|apply Rinv_neq_0_compat; lra]. rewrite Rmult_0_l. exact Hz. }
      pose proof (sumn_ge_term (me_n m) (fun i => member (me_g m) k i * ((z i - st_mean (me_n m) (me_g m) z k) * (z i - st_mean (me_n m) (me_g m) z k))) i' Hi') as G.
      unfold st_sum in S0. rewrite S0 in G. cbv beta in G. unfold member at 2 in G. destruct (Nat.eq_dec (me_g m i') k) as [_|]; [|contradiction].
      assert (G' : 1 * ((z i' - st_mean (me_n m) (me_g m) z k) * (z i' - st_mean (me_n m) (me_g m) z k)) <= 0).
      { apply G. intros b Hb. apply Rmult_le_pos; [unfold member; destruct (Nat.eq_dec _ _); lra|apply Rle_0_sqr]. }
      set (t := z i' - _) in *. assert (t = 0) by nra. unfold t in *. lra. }
    rewrite (Q i Hi Gi), (Q j Hj Gj). reflexivity.
  - eapply Rle_trans; [apply (prob_union_n _ (me_S m) (fun k o => if Rle_dec eps (Rabs (st_mean (me_n m) (me_g m) (fun i => seen (own_corr m (fun _ _ => 0)) (nth_error o i)) k - me_value m)) then true else false)); [apply logs_dist; auto|]|].
    + intros o p Ho Hp E. destruct (Cases o p Ho Hp) as [[Hv V]|(k & _ & _ & V)]; rewrite V in E; [|discriminate]. cbn [returned_off] in E.
      set (z := ipw_term _ _) in *. destruct (Rle_dec eps _) as [Hle|]; [|discriminate].
      assert (Dec : (exists k, (k < me_S m)%nat /\ eps <= Rabs (st_mean (me_n m) (me_g m) z k - me_value m)) \/ (forall k, (k < me_S m)%nat -> Rabs (st_mean (me_n m) (me_g m) z k - me_value m) < eps)).
      { clear. induction (me_S m) as [|S IH]; [right; intros; lia|]. destruct IH as [(k & Hk & H)|H]; [left; exists k; split; auto|].
        destruct (Rle_lt_dec eps (Rabs (st_mean (me_n m) (me_g m) z S - me_value m))) as [|N]; [left; exists S; auto|].
        right. intros k Hk. destruct (Nat.eq_dec k S) as [->|]; auto. apply H. lia. }
      destruct Dec as [(k & Hk & H)|H].
      * exists k. split; auto. rewrite (st_mean_ext _ _ z (fun i => seen (own_corr m (fun _ _ => 0)) (nth_error o i))) in H.
        -- destruct (Rle_dec _ _); [reflexivity|contradiction].
        -- intros i Hi. unfold z. eapply own_ipw; eauto.
      * exfalso. revert Hle. apply Rlt_not_le. apply ivavg_close; auto.
    + apply sumn_le. intros k Hk. apply (stratum_off (round_dist (env_of m)) (me_n m) (me_g m) k); auto; try apply Hm; [apply mround_dist; auto| |].
      * intros i Hi. rewrite <- ipw_mean. apply (own_corr_mean m Hm _ W HW i Hi).
      * intros i Hi. apply (own_corr_square m Hm _ W Rm HR0 HW i Hi).
Qed.

Theorem C171_weighted_dr_consistent : forall X (m : menv X) (qh : X -> nat -> nat -> R) arg W C Qm eps, menv_ok m -> 0 < eps ->
  contiguous (me_n m) (me_g m) (me_S m) ->
  (forall pt q o, position_arg (log_of (env_of m) pt q o) arg) ->
  (forall x a r p, (a < me_K m)%nat -> In (r, p) (me_rd m x (me_s m) a) -> p <> 0 -> Rabs (r - qh x a (me_s m)) <= C) ->
  (forall x a, (a < me_K m)%nat -> Rabs (qh x a (me_s m)) <= Qm) ->
  (forall i x a, (i < me_n m)%nat -> (a < me_K m)%nat -> me_pe m x a (me_s m) <= W * me_pb m (me_g m i) x (me_s m) a) ->
  let call o := let l := log_of (env_of m) (own_pscore m) (fun xk => qh (fst xk)) o in
    mw_dr_value PInf false (rewards l) (actions l) (policy l) (labels l (me_g m)) (model l) (Some (pscores l)) arg None in
  (forall o p, In (o, p) (log_dist (env_of m)) -> p <> 0 -> (exists v, call o = Ok (Fin v)) \/ call o = Ok NaN) /\
  prob (log_dist (env_of m)) (fun o => returned_off (call o) (me_value m) eps)
  <= 4 * (Qm * Qm) / (INR (me_n m) * (eps * eps)) + sumn (me_S m) (fun k => 4 * (W * (C * C)) / (st_size (me_n m) (me_g m) k * (eps * eps))).
Proof.
  intros X m qh arg W C Qm eps Hm Heps Hc Harg HC HQ HW call. assert (HN : 0 < INR (me_n m)) by (apply lt_0_INR, Hm).
  assert (Hsz : forall k, (k < me_S m)%nat -> 0 < st_size (me_n m) (me_g m) k).
  { intros k Hk. destruct Hc as [_ Hc]. destruct (Hc k Hk) as (i & Hi & E). apply (st_size_pos _ _ _ i); auto. }
  assert (HS : (0 < me_S m)%nat) by (eapply contiguous_pos; [apply Hm|exact Hc]).
  assert (H2 : 0 < eps / 2) by lra.
  set (q := fun x a => qh x a (me_s m)).
  assert (Cases : forall o p, In (o, p) (log_dist (env_of m)) -> p <> 0 ->
     let l := log_of (env_of m) (own_pscore m) (fun xk => qh (fst xk)) o in
     ((forall k, (k < me_S m)%nat -> 0 < st_var (me_n m) (me_g m) (dr_term None l) k) /\
      call o = Ok (Fin (spec_dm l + inverse_variance_average (me_n m) (me_S m) (me_g m) (dr_term None l) (dr_corr None l)))) \/ call o = Ok NaN).
  { intros o p Ho Hp l. pose proof (own_accepted m Hm qh o p Ho Hp) as Ha.
    destruct (variances (me_n m) (me_g m) (me_S m) (dr_term None l) (mo_n m Hm) Hc) as [Hv|(k & Hk & Hz)].
    - left. split; [exact Hv|]. unfold call. cbv zeta.
      exact (C40_weighted_dr_value _ (me_g m) (me_S m) None false _ None arg Ha (Harg _ _ _) eq_refl Hc Hv).
    - right. destruct (C41_zero_variance _ (me_g m) (me_S m) None false _ None arg k Ha (Harg _ _ _) eq_refl Hc Hk) as [_ N]. exact (N Hz). }
  split.
  - intros o p Ho Hp. destruct (Cases o p Ho Hp) as [[_ E]|E]; [left; eauto|right; exact E].
  - set (dm_event := fun o => if Rle_dec (eps / 2) (Rabs (avg (me_n m) (fun i => seen (dm_term m qh) (nth_error o i)) - dm_mean m qh)) then true else false).
    set (st_event := fun k o => if Rle_dec (eps / 2) (Rabs (st_mean (me_n m) (me_g m) (fun i => seen (own_corr m q) (nth_error o i)) k - corr_mean m q)) then true else false).
    set (any := fun o => existsb (fun k => st_event k o) (seq 0 (me_S m))).
    apply (Rle_trans _ (prob (log_dist (env_of m)) dm_event + prob (log_dist (env_of m)) any)); [|apply Rplus_le_compat].
    + apply prob_union; [apply logs_dist; auto|]. intros o p Ho Hp E.
      destruct (Cases o p Ho Hp) as [[Hv V]|V]; rewrite V in E; [|discriminate]. cbn [returned_off] in E.
      set (l := log_of _ _ _ o) in *. destruct (Rle_dec eps _) as [Hle|]; [|discriminate].
      assert (Edm : spec_dm l = avg (me_n m) (fun i => seen (dm_term m qh) (nth_error o i))).
      { unfold spec_dm. apply avg_ext. intros i Hi. exact (proj2 (own_dr m Hm qh o p i Ho Hp Hi)). }
      rewrite <- (split_value m Hm qh) in Hle. apply two_parts in Hle. destruct Hle as [Hle|Hle].
      * left. unfold dm_event. rewrite <- Edm. destruct (Rle_dec _ _); [reflexivity|contradiction].
      * right. destruct (any o) eqn:Ea; [reflexivity|]. exfalso. revert Hle. apply Rlt_not_le. apply ivavg_close; auto.
        intros k Hk. rewrite (st_mean_ext _ _ (dr_corr None l) (fun i => seen (own_corr m q) (nth_error o i))).
        2:{ intros i Hi. exact (proj1 (own_dr m Hm qh o p i Ho Hp Hi)). }
        assert (Ek : st_event k o = false).
        { destruct (st_event k o) eqn:Ek; [|reflexivity]. assert (any o = true) by (unfold any; apply existsb_exists; exists k; split; [apply in_seq; lia|exact Ek]). congruence. }
        unfold st_event in Ek. destruct (Rle_dec _ _) as [|N]; [discriminate|]. apply Rnot_le_lt in N. exact N.
    + eapply Rle_trans; [apply (dm_off m Hm qh Qm (eps / 2) H2 HQ)|]. right. field. lra.
    + eapply Rle_trans; [apply (prob_union_n _ (me_S m) st_event); [apply logs_dist; auto|]|].
      * intros o p Ho Hp E. unfold any in E. apply existsb_exists in E. destruct E as (k & Hk & E). apply in_seq in Hk. exists k. split; [lia|exact E].
      * apply sumn_le. intros k Hk. specialize (Hsz k Hk).
        eapply Rle_trans; [apply (stratum_off (round_dist (env_of m)) (me_n m) (me_g m) k (own_corr m q) (W * (C * C)) (corr_mean m q) (eps / 2)); auto; try apply Hm; [apply mround_dist; auto| |]|].
        -- intros i Hi. apply (own_corr_mean m Hm _ W HW i Hi).
        -- intros i Hi. apply (own_corr_square m Hm _ W C HC HW i Hi).
        -- right. field. lra.
Qed.

(** Two loggers taking turns for [n] rounds, both choosing one of two actions uniformly; the evaluation policy always chooses the
    second one and rewards are 0 or 1 with equal chances. *)
Definition turns (n : nat) : menv unit := {|
  me_n := n; me_K := 2; me_L := 1; me_S := 2; me_s := 0%nat; me_g := fun i => (i mod 2)%nat;
  me_ctx := [(tt, 1)];
  me_pb := fun _ _ _ _ => 1 / 2;
  me_pe := fun _ a _ => if Nat.eqb a 1 then 1 else 0;
  me_rd := fun _ _ _ => [(0, 1 / 2); (1, 1 / 2)] |}.
Example C171_example : forall n, (2 <= n)%nat ->
  menv_ok (turns n) /\ contiguous n (me_g (turns n)) 2 /\ (forall pt q o, position_arg (log_of (env_of (turns n)) pt q o) None) /\
  (forall x a r p, (a < 2)%nat -> In (r, p) (me_rd (turns n) x 0 a) -> p <> 0 -> Rabs r <= 1) /\
  (forall x a r p, (a < 2)%nat -> In (r, p) (me_rd (turns n) x 0 a) -> p <> 0 -> Rabs (r - 1 / 2) <= 1 / 2) /\
  (forall i x a, (i < n)%nat -> (a < 2)%nat -> me_pe (turns n) x a 0 <= 2 * me_pb (turns n) (me_g (turns n) i) x 0 a) /\
  (forall x a, (a < 2)%nat -> me_pe (turns n) x a 0 <= 2 * avg_pscore (turns n) (x, 0%nat) 0 a) /\
  me_value (turns n) = 1 / 2 /\
  prob (log_dist (env_of (turns n))) (fun o => let l := log_of (env_of (turns n)) (own_pscore (turns n)) (fun _ _ _ => 0) o in
     estimate_off (mn_ipw_value PInf false (rewards l) (actions l) (policy l) (Some (pscores l)) None None) (1 / 2) 1) <= 2 / INR n.
Proof.
  intros n Hn. assert (HN : 0 < INR n) by (apply lt_0_INR; lia).
  assert (Ok1 : menv_ok (turns n)).
  { constructor; simpl; intros; try lia; try lra.
    - pose proof (Nat.mod_upper_bound i 2). simpl in H0. lia.
    - split; simpl; [intros ? ? [[= <- <-]|[]]; lra|lra].
    - destruct (Nat.eqb a 1); lra.
    - split; simpl; [intros ? ? [[= <- <-]|[[= <- <-]|[]]]; lra|lra]. }
  assert (Cont : contiguous n (me_g (turns n)) 2).
  { split.
    - intros i Hi. cbn [turns me_g]. apply Nat.mod_upper_bound. lia.
    - intros k Hk. exists k. split; [lia|]. cbn [turns me_g]. apply Nat.mod_small. lia. }
  assert (Pos : forall pt q o, position_arg (log_of (env_of (turns n)) pt q o) None) by (intros pt q o; right; simpl; auto).
  assert (R1 : forall x a r p, (a < 2)%nat -> In (r, p) (me_rd (turns n) x 0 a) -> p <> 0 -> Rabs r <= 1).
  { intros x a r p _ Hin _. simpl in Hin. destruct Hin as [[= <- <-]|[[= <- <-]|[]]]; rewrite Rabs_right; lra. }
  assert (Wt : forall i x a, (i < n)%nat -> (a < 2)%nat -> me_pe (turns n) x a 0 <= 2 * me_pb (turns n) (me_g (turns n) i) x 0 a).
  { intros i x a _ _. simpl. destruct (Nat.eqb a 1); lra. }
  assert (Val : me_value (turns n) = 1 / 2) by (unfold me_value; simpl; lra).
  split; [exact Ok1|]. split; [exact Cont|]. split; [exact Pos|]. split; [exact R1|]. split; [|split; [exact Wt|split; [|split; [exact Val|]]]].
  - intros x a r p _ Hin _. simpl in Hin. destruct Hin as [[= <- <-]|[[= <- <-]|[]]]; [rewrite Rabs_left|rewrite Rabs_right]; lra.
  - intros x a _. pose proof (avg_pscore_avg (turns n) Ok1 (x, 0%nat) 0 a) as E. rewrite <- E. cbn [me_pb turns me_n].
    rewrite avg_const by lia. simpl. destruct (Nat.eqb a 1); lra.
  - destruct (C171_ipw_consistent unit (turns n) (fun _ _ _ => 0) None 2 1 1 Ok1 ltac:(lra) Pos R1) as [N _].
    specialize (N Wt). rewrite Val in N. cbv zeta in *. eapply Rle_trans; [exact N|]. right. cbn [turns me_n]. field. lra.
Qed.

Print Assumptions C171_ipw_consistent.
Print Assumptions C171_dr_consistent.
Print Assumptions C171_weighted_ipw_consistent.
Print Assumptions C171_weighted_dr_consistent.
