(** * L_Conc3: Chebyshev's inequality and consistency of the importance-weighting estimators. *)

From Coq Require Import Reals List ZArith Bool Lia Lra.
From Verif Require Import Num NpList M_Utils M_Estimators S_Base S_Prob S_Conc S_Estimators S_Env
  L_Num L_Base L_Prob L_Estimators L_Unbiased L_Conc.
Import ListNotations.
Open Scope R_scope.

Section Cheb.
  Context {A : Type} (D : nat -> dist A).

  Lemma second_moment n (g : nat -> option A -> R) :
    (forall i, (i < n)%nat -> is_dist (D i)) -> (forall i, (i < n)%nat -> expect (D i) (fun x => g i (Some x)) = 0) ->
    expect (dprod n D) (fun o => sumn n (fun i => g i (nth_error o i)) * sumn n (fun i => g i (nth_error o i)))
    = sumn n (fun i => expect (D i) (fun x => g i (Some x) * g i (Some x))).
  Proof.
    induction n; simpl; intros Hd H0; [lra|]. rewrite expect_dbind.
    assert (HD : is_dist (dprod n D)) by (apply is_dist_dprod; auto).
    rewrite (expect_ext (dprod n D) _ (fun o => sumn n (fun i => g i (nth_error o i)) * sumn n (fun i => g i (nth_error o i))
       + expect (D n) (fun x => g n (Some x) * g n (Some x)))).
    - rewrite expect_plus, IHn, expect_const by auto. reflexivity.
    - intros o p Ho Hp. destruct (In_dprod n D o p Ho Hp) as [Hl _]. rewrite expect_dmap.
      set (s := sumn n (fun i => g i (nth_error o i))).
      rewrite (expect_ext_all (D n) _ (fun x => s * s + 2 * s * g n (Some x) + g n (Some x) * g n (Some x))).
      + rewrite !expect_plus, expect_const, expect_scal, H0 by auto. lra.
      + intros x. rewrite nth_error_app2, Hl, Nat.sub_diag by lia. simpl.
        rewrite (sumn_ext n (fun i => g i (nth_error (o ++ [x]) i)) (fun i => g i (nth_error o i))).
        * fold s. ring.
        * intros i Hi. rewrite nth_error_app1 by lia. reflexivity.
  Qed.

  Lemma variance_le_second (d : dist A) f : is_dist d ->
    expect d (fun x => (f x - expect d f) * (f x - expect d f)) <= expect d (fun x => f x * f x).
  Proof.
    intros Hd. set (m := expect d f).
    rewrite (expect_ext_all d _ (fun x => f x * f x - 2 * m * f x + m * m)) by (intros; ring).
    rewrite expect_plus, expect_minus, expect_scal, expect_const by auto. fold m. nra.
  Qed.

  Lemma chebyshev n (g : nat -> option A -> R) B eps : (0 < n)%nat -> 0 < eps ->
    (forall i, (i < n)%nat -> is_dist (D i)) ->
    (forall i, (i < n)%nat -> expect (D i) (fun x => g i (Some x) * g i (Some x)) <= B) ->
    prob (dprod n D) (fun o => if Rle_dec eps (Rabs (avg n (fun i => g i (nth_error o i)) - avg n (fun i => expect (D i) (fun x => g i (Some x))))) then true else false)
    <= B / (INR n * (eps * eps)).
  Proof.
    intros Hn He Hd HB. assert (HN : 0 < INR n) by (apply lt_0_INR; auto).
    assert (HD : is_dist (dprod n D)) by (apply is_dist_dprod; auto).
    set (m := fun i => expect (D i) (fun x => g i (Some x))).
    set (h := fun i y => g i y - m i).
    set (c := / (INR n * INR n * (eps * eps))). assert (Hc : 0 < c) by (apply Rinv_0_lt_compat; apply Rmult_lt_0_compat; nra).
    apply (Rle_trans _ (expect (dprod n D) (fun o => c * (sumn n (fun i => h i (nth_error o i)) * sumn n (fun i => h i (nth_error o i)))))).
    - apply prob_le_expect; auto.
      + intros. apply Rmult_le_pos; [lra|apply Rle_0_sqr].
      + intros o p Ho Hp E. destruct (Rle_dec _ _) as [Hle|]; [|discriminate].
        assert (Es : avg n (fun i => g i (nth_error o i)) - avg n m = sumn n (fun i => h i (nth_error o i)) / INR n).
        { unfold h. rewrite sumn_minus. unfold avg. field. lra. }
        fold m in Hle. rewrite Es in Hle. set (s := sumn n (fun i => h i (nth_error o i))) in *.
        assert (Hs2 : eps * eps <= (s / INR n) * (s / INR n)).
        { replace ((s / INR n) * (s / INR n)) with (Rabs (s / INR n) * Rabs (s / INR n)) by (rewrite <- Rabs_mult; apply Rabs_right; apply Rle_ge, Rle_0_sqr).
          apply Rmult_le_compat; lra. }
        apply (Rmult_le_reg_l (eps * eps)); [nra|].
        replace (eps * eps * (c * (s * s))) with (s / INR n * (s / INR n)) by (unfold c; field; split; lra). lra.
    - rewrite expect_scal. rewrite (second_moment n h Hd).
      + apply (Rle_trans _ (c * sumn n (fun _ => B))).
        * apply Rmult_le_compat_l; [lra|]. apply sumn_le. intros i Hi. eapply Rle_trans; [|apply (HB i Hi)].
          unfold h, m. apply (variance_le_second (D i) (fun x => g i (Some x))). auto.
        * rewrite sumn_const. unfold c. right. field. split; lra.
      + intros i Hi. unfold h. rewrite expect_minus, expect_const by auto. unfold m. lra.
  Qed.
End Cheb.

Lemma sq_le (x y : R) : 0 <= y -> Rabs x <= y -> x * x <= y * y.
Proof. intros Hy H. unfold Rabs in H. destruct (Rcase_abs x); nra. Qed.

Section Env.
  Context {X : Type} (e : benv X) (He : env_ok e) (W Rm : R).
  Hypothesis HW : forall x a s, (a < ev_K e)%nat -> ev_pe e x a s <= W * ev_pb e x s a.
  Hypothesis HR : forall x s a r p, (a < ev_K e)%nat -> In (r, p) (ev_rd e x s a) -> p <> 0 -> Rabs r <= Rm.

  Lemma support_of_bound : common_support e.
  Proof.
    intros x a s Ha Hp. pose proof (HW x a s Ha). pose proof (eo_pb0 e He x s a Ha).
    destruct (Req_dec (ev_pb e x s a) 0) as [E|]; [rewrite E in H; lra|]. lra.
  Qed.

  Definition wgt (x : X) (s a : nat) : R := ev_pe e x a s / ev_pb e x s a.

  (** Second moment of [weight * h]. *)
  Lemma weighted_moment i (h : X -> nat -> R -> R) B : (i < ev_n e)%nat -> 0 <= B ->
    (forall x a r p, (a < ev_K e)%nat -> In (r, p) (ev_rd e x (ev_pos e i) a) -> p <> 0 -> h x a r * h x a r <= B) ->
    expect (round_dist e i) (fun y => match y with (x, a, r) => (wgt x (ev_pos e i) a * h x a r) * (wgt x (ev_pos e i) a * h x a r) end) <= W * B.
  Proof.
    intros Hi HB Hh. set (s := ev_pos e i) in *.
    rewrite (expect_round e i _ (fun x a r => (wgt x s a * h x a r) * (wgt x s a * h x a r))) by reflexivity.
    apply (Rle_trans _ (expect (ev_ctx e i) (fun _ => W * B))); [|rewrite expect_const by (apply He; auto); lra].
    apply expect_le_supp; [apply He; auto|]. intros x px _ _.
    replace (W * B) with (sumn (ev_K e) (fun a => W * B * ev_pe e x a s)) by (rewrite sumn_scal, (eo_pe1 e He); ring).
    apply sumn_le. intros a Ha. fold s.
    pose proof (eo_pe0 e He x a s Ha) as He0. pose proof (eo_pb0 e He x s a Ha) as Hb0. pose proof (HW x a s Ha) as Hw.
    destruct (Req_dec (ev_pb e x s a) 0) as [E|E].
    - rewrite E in Hw. assert (Z : ev_pe e x a s = 0) by lra. rewrite E, Z. lra.
    - assert (Hb : 0 < ev_pb e x s a) by lra.
      apply (Rle_trans _ (wgt x s a * wgt x s a * B * ev_pb e x s a)).
      + apply Rmult_le_compat_r; auto. rewrite <- (expect_const (ev_rd e x s a) (wgt x s a * wgt x s a * B)) by apply He.
        apply expect_le_supp; [apply He|]. intros r p Hr Hp. specialize (Hh x a r p Ha Hr Hp).
        assert (0 <= wgt x s a * wgt x s a) by apply Rle_0_sqr. nra.
      + unfold wgt. replace (ev_pe e x a s / ev_pb e x s a * (ev_pe e x a s / ev_pb e x s a) * B * ev_pb e x s a)
          with (B * ev_pe e x a s * (ev_pe e x a s / ev_pb e x s a)) by (field; lra).
        assert (Hq : ev_pe e x a s / ev_pb e x s a <= W) by (apply (Rmult_le_reg_r (ev_pb e x s a)); auto; unfold Rdiv; rewrite Rmult_assoc, Rinv_l; lra).
        replace (W * B * ev_pe e x a s) with (B * ev_pe e x a s * W) by ring. apply Rmult_le_compat_l; auto. apply Rmult_le_pos; auto.
  Qed.

  (** First moment of [weight * h]. *)
  Lemma weighted_mean i (h : X -> nat -> R -> R) : (i < ev_n e)%nat ->
    expect (round_dist e i) (fun y => match y with (x, a, r) => wgt x (ev_pos e i) a * h x a r end)
    = expect (ev_ctx e i) (fun x => sumn (ev_K e) (fun a => ev_pe e x a (ev_pos e i) * expect (ev_rd e x (ev_pos e i) a) (h x a))).
  Proof.
    intros Hi. set (s := ev_pos e i) in *. rewrite (expect_round e i _ (fun x a r => wgt x s a * h x a r)) by reflexivity.
    apply expect_ext_all. intros x. apply sumn_ext. intros a Ha. fold s. rewrite expect_scal. unfold wgt.
    destruct (Rle_lt_or_eq_dec 0 _ (eo_pe0 e He x a s Ha)) as [Hpos|Hz].
    - pose proof (support_of_bound x a s Ha Hpos). field. lra.
    - rewrite <- Hz. unfold Rdiv. lra.
  Qed.

  Lemma log_is_dist : is_dist (log_dist e).
  Proof. apply is_dist_dprod. apply is_dist_round. auto. Qed.

  Definition ipw_term (i : nat) (y : option (X * nat * R)) : R :=
    match y with Some (x, a, r) => wgt x (ev_pos e i) a * r | None => 0 end.

  Lemma Rm_nonneg : 0 <= Rm.
  Proof.
    pose proof (eo_n e He) as Hn. pose proof (eo_ctx e He 0%nat Hn) as Hc.
    destruct (ev_ctx e 0%nat) as [|[x p] c] eqn:Ec; [destruct Hc as [_ Hc]; simpl in Hc; lra|].
    pose proof (eo_pb1 e He x 0%nat) as H1. destruct (ev_K e) as [|K] eqn:EK; [simpl in H1; lra|].
    pose proof (eo_rd e He x 0%nat 0%nat) as Hr.
    assert (Hex : exists r q, In (r, q) (ev_rd e x 0%nat 0%nat) /\ q <> 0).
    { destruct Hr as [_ Hr]. revert Hr. generalize (ev_rd e x 0%nat 0%nat). intros d Hd. induction d as [|[r q] d IH]; [simpl in Hd; lra|].
      destruct (Req_dec q 0) as [->|Hq]; [|exists r, q; simpl; auto]. simpl in Hd. destruct IH as (r' & q' & Hin & Hq'); [simpl; lra|]. exists r', q'. simpl. auto. }
    destruct Hex as (r & q & Hin & Hq). pose proof (HR x 0%nat 0%nat r q ltac:(lia) Hin Hq). pose proof (Rabs_pos r). lra.
  Qed.

  Lemma ipw_mean : avg (ev_n e) (fun i => expect (round_dist e i) (fun y => ipw_term i (Some y))) = policy_value e.
  Proof.
    apply avg_ext. intros i Hi.
    rewrite (expect_ext_all _ (fun y => ipw_term i (Some y)) (fun y => match y with (x, a, r) => wgt x (ev_pos e i) a * r end)) by (intros [[x a] r]; reflexivity).
    rewrite (weighted_mean i (fun _ _ r => r)) by auto. reflexivity.
  Qed.

  Lemma ipw_term_log qh o i : lg_r (log_of e (ev_pb e) qh o) i * weight (log_of e (ev_pb e) qh o) i = ipw_term i (nth_error o i).
  Proof. unfold weight, ipw_term, wgt. simpl. destruct (nth_error o i) as [[[x a] r]|]; lra. Qed.

  Lemma ipw_consistent qh arg eps : 0 < eps -> (forall o, position_arg (log_of e (ev_pb e) qh o) arg) ->
    prob (log_dist e) (fun o => let l := log_of e (ev_pb e) qh o in
      estimate_off (ipw_value PInf false (rewards l) (actions l) (policy l) (Some (pscores l)) arg None) (policy_value e) eps)
    <= W * (Rm * Rm) / (INR (ev_n e) * (eps * eps)).
  Proof.
    intros Heps Harg. pose proof Rm_nonneg as HRm. 
    rewrite <- ipw_mean.
    pose proof (chebyshev (round_dist e) (ev_n e) ipw_term (W * (Rm * Rm)) eps (eo_n e He) Heps (is_dist_round e He)) as C.
    eapply Rle_trans; [|apply C].
    - right. unfold prob. apply expect_ext. intros o p Ho Hp. cbv zeta.
      rewrite (ipw_value_ok None).
      + unfold estimate_off, spec_ipw. simpl clip.
        rewrite (avg_ext (ev_n e) (fun i => ipw_term i (nth_error o i)) (fun i => lg_r (log_of e (ev_pb e) qh o) i * weight (log_of e (ev_pb e) qh o) i))
          by (intros; rewrite <- (ipw_term_log qh); reflexivity).
        reflexivity.
      + eapply accepted_log; eauto.
      + apply Harg.
      + reflexivity.
    - intros i Hi. eapply Rle_trans; [|apply (weighted_moment i (fun _ _ r => r) (Rm * Rm)); auto; [nra|]].
      + right. apply expect_ext_all. intros [[x a] r]. reflexivity.
      + intros x a r p Ha Hr Hp. apply sq_le; auto. eapply HR; eauto.
  Qed.

  (** ** Doubly robust *)
  Variable qh : X -> nat -> nat -> R.
  Hypothesis HQ : forall x a s, (a < ev_K e)%nat -> Rabs (qh x a s) <= Rm.

  Definition qpi (x : X) (s : nat) : R := sumn (ev_K e) (fun b => qh x b s * ev_pe e x b s).
  Definition dr_term (i : nat) (y : option (X * nat * R)) : R :=
    match y with Some (x, a, r) => qpi x (ev_pos e i) + wgt x (ev_pos e i) a * (r - qh x a (ev_pos e i)) | None => 0 end.

  Lemma qpi_bound x s : Rabs (qpi x s) <= Rm.
  Proof.
    unfold qpi. eapply Rle_trans; [apply sumn_abs|]. apply (Rle_trans _ (sumn (ev_K e) (fun b => Rm * ev_pe e x b s))).
    - apply sumn_le. intros b Hb. rewrite Rabs_mult. pose proof (eo_pe0 e He x b s Hb). rewrite (Rabs_right (ev_pe e x b s)) by lra.
      apply Rmult_le_compat_r; auto.
    - rewrite sumn_scal, (eo_pe1 e He). lra.
  Qed.

  Lemma dr_mean : avg (ev_n e) (fun i => expect (round_dist e i) (fun y => dr_term i (Some y))) = policy_value e.
  Proof.
    apply avg_ext. intros i Hi. set (s := ev_pos e i).
    rewrite (expect_ext_all _ (fun y => dr_term i (Some y)) (fun y => match y with (x, a, r) => qpi x s end + match y with (x, a, r) => wgt x s a * (r - qh x a s) end)) by (intros [[x a] r]; reflexivity).
    rewrite expect_plus. unfold s. rewrite (weighted_mean i (fun x a r => r - qh x a (ev_pos e i))) by auto. fold s.
    rewrite (expect_round e i _ (fun x _ _ => qpi x s)) by reflexivity. rewrite <- expect_plus. apply expect_ext_all. intros x. fold s.
    rewrite (sumn_ext (ev_K e) (fun a => expect (ev_rd e x s a) (fun _ => qpi x s) * ev_pb e x s a) (fun a => qpi x s * ev_pb e x s a)) by (intros; rewrite expect_const by apply He; reflexivity).
    rewrite sumn_scal, (eo_pb1 e He). unfold qpi. rewrite Rmult_1_r, <- sumn_plus. apply sumn_ext. intros a Ha.
    rewrite expect_minus, expect_const by apply He. unfold q_true. lra.
  Qed.

  Lemma dr_moment i : (i < ev_n e)%nat -> expect (round_dist e i) (fun y => dr_term i (Some y) * dr_term i (Some y)) <= (2 + 8 * W) * (Rm * Rm).
  Proof.
    intros Hi. pose proof Rm_nonneg as HRm. pose proof (is_dist_round e He i Hi) as Hd. set (s := ev_pos e i).
    set (t := fun y : X * nat * R => match y with (x, a, r) => (wgt x s a * (r - qh x a s)) * (wgt x s a * (r - qh x a s)) end).
    apply (Rle_trans _ (expect (round_dist e i) (fun y => 2 * (Rm * Rm) + 2 * t y))).
    - apply expect_le_supp; auto. intros [[x a] r] p _ _. unfold dr_term, t. fold s. set (u := wgt x s a * (r - qh x a s)).
      pose proof (sq_le (qpi x s) Rm HRm (qpi_bound x s)). assert (0 <= (qpi x s - u) * (qpi x s - u)) by apply Rle_0_sqr. nra.
    - rewrite expect_plus, expect_const, expect_scal by auto.
      assert (Ht : expect (round_dist e i) t <= W * (2 * Rm * (2 * Rm))).
      { apply (weighted_moment i (fun x a r => r - qh x a s) (2 * Rm * (2 * Rm))); auto; [nra|].
        intros x a r p Ha Hr Hp. apply sq_le; [lra|]. eapply Rle_trans; [apply Rabs_triang|]. rewrite Rabs_Ropp.
        pose proof (HR x (ev_pos e i) a r p Ha Hr Hp). pose proof (HQ x a s Ha). lra. }
      lra.
  Qed.

  Lemma dr_consistent arg eps : 0 < eps -> (forall o, position_arg (log_of e (ev_pb e) qh o) arg) ->
    prob (log_dist e) (fun o => let l := log_of e (ev_pb e) qh o in
      estimate_off (dr_value PInf false (rewards l) (actions l) (policy l) (model l) (Some (pscores l)) arg None) (policy_value e) eps)
    <= (2 + 8 * W) * (Rm * Rm) / (INR (ev_n e) * (eps * eps)).
  Proof.
    intros Heps Harg. rewrite <- dr_mean.
    pose proof (chebyshev (round_dist e) (ev_n e) dr_term ((2 + 8 * W) * (Rm * Rm)) eps (eo_n e He) Heps (is_dist_round e He) dr_moment) as C.
    eapply Rle_trans; [|apply C]. right. unfold prob. apply expect_ext. intros o p Ho Hp. cbv zeta.
    rewrite (dr_value_ok None).
    - unfold estimate_off, spec_dr. rewrite <- dr_sum.
      change (lg_n (log_of e (ev_pb e) qh o)) with (ev_n e).
      rewrite (avg_ext (ev_n e) (fun i => dr_term i (nth_error o i)) (fun i => q_pi (log_of e (ev_pb e) qh o) i + clip None (weight (log_of e (ev_pb e) qh o) i) * (lg_r (log_of e (ev_pb e) qh o) i - q_at (log_of e (ev_pb e) qh o) i))); [reflexivity|].
      intros i Hi. destruct (In_dprod_opt _ _ _ _ Ho Hp i Hi) as ([[x a] r] & q & E & _ & _).
      rewrite (q_pi_log e He _ _ _ _ _ _ _ Hi E). unfold weight, q_at, dr_term, qpi, wgt, clip.
      cbn [lg_r lg_q lg_pi lg_a lg_p lg_pos log_of]. rewrite E. reflexivity.
    - eapply accepted_log; eauto.
    - apply Harg.
    - reflexivity.
  Qed.

  (** ** Self-normalised *)
  Definition w_term (i : nat) (y : option (X * nat * R)) : R :=
    match y with Some (x, a, r) => wgt x (ev_pos e i) a | None => 0 end.
  Definition dev_term (i : nat) (y : option (X * nat * R)) : R :=
    match y with Some (x, a, r) => wgt x (ev_pos e i) a * (r - policy_value e) | None => 0 end.

  Lemma w_mean : avg (ev_n e) (fun i => expect (round_dist e i) (fun y => w_term i (Some y))) = 1.
  Proof.
    rewrite <- (avg_const (ev_n e) 1 (eo_n e He)). apply avg_ext. intros i Hi.
    rewrite (expect_ext_all _ (fun y => w_term i (Some y)) (fun y => match y with (x, a, r) => wgt x (ev_pos e i) a * 1 end)) by (intros [[x a] r]; simpl; lra).
    rewrite (weighted_mean i (fun _ _ _ => 1)) by auto.
    rewrite (expect_ext_all _ _ (fun _ => 1)); [apply expect_const; apply He; auto|]. intros x.
    rewrite (sumn_ext _ _ (fun a => ev_pe e x a (ev_pos e i))) by (intros; rewrite expect_const by apply He; lra). apply (eo_pe1 e He).
  Qed.

  Lemma dev_mean : avg (ev_n e) (fun i => expect (round_dist e i) (fun y => dev_term i (Some y))) = 0.
  Proof.
    transitivity (avg (ev_n e) (fun i => expect (round_dist e i) (fun y => ipw_term i (Some y)))
      - policy_value e * avg (ev_n e) (fun i => expect (round_dist e i) (fun y => w_term i (Some y)))); [|rewrite ipw_mean, w_mean; lra].
    rewrite <- avg_scal, <- avg_minus. apply avg_ext. intros i Hi. rewrite <- expect_scal, <- expect_minus. apply expect_ext_all.
    intros [[x a] r]. unfold dev_term, ipw_term, w_term. ring.
  Qed.

  Lemma value_bound : Rabs (policy_value e) <= Rm.
  Proof.
    pose proof Rm_nonneg as HRm. rewrite <- ipw_mean.
    assert (B : forall i, (i < ev_n e)%nat -> - Rm <= expect (round_dist e i) (fun y => ipw_term i (Some y)) <= Rm).
    { intros i Hi. rewrite (expect_ext_all _ (fun y => ipw_term i (Some y)) (fun y => match y with (x, a, r) => wgt x (ev_pos e i) a * r end)) by (intros [[x a] r]; reflexivity).
      rewrite (weighted_mean i (fun _ _ r => r)) by auto. set (s := ev_pos e i).
      assert (Q : forall x a, (a < ev_K e)%nat -> - Rm <= expect (ev_rd e x s a) (fun r => r) <= Rm).
      { intros x a Ha. split.
        - rewrite <- (expect_const (ev_rd e x s a) (- Rm)) by apply He. apply expect_le_supp; [apply He|]. intros r p Hr Hp.
          pose proof (HR x s a r p Ha Hr Hp) as Hb. unfold Rabs in Hb. destruct (Rcase_abs r); lra.
        - rewrite <- (expect_const (ev_rd e x s a) Rm) by apply He. apply expect_le_supp; [apply He|]. intros r p Hr Hp.
          pose proof (HR x s a r p Ha Hr Hp) as Hb. unfold Rabs in Hb. destruct (Rcase_abs r); lra. }
      split.
      - rewrite <- (expect_const (ev_ctx e i) (- Rm)) by (apply He; auto). apply expect_le_supp; [apply He; auto|]. intros x p _ _.
        rewrite <- (Rmult_1_l (- Rm)), <- (eo_pe1 e He x s), <- sumn_scal_r. apply sumn_le. intros a Ha. apply Rmult_le_compat_l; [apply He; auto|]. apply Q. auto.
      - rewrite <- (expect_const (ev_ctx e i) Rm) by (apply He; auto). apply expect_le_supp; [apply He; auto|]. intros x p _ _.
        rewrite <- (Rmult_1_l Rm), <- (eo_pe1 e He x s), <- sumn_scal_r. apply sumn_le. intros a Ha. apply Rmult_le_compat_l; [apply He; auto|]. apply Q. auto. }
    apply Rabs_le. rewrite <- (avg_const (ev_n e) Rm) at 2 by apply He. rewrite <- (avg_const (ev_n e) (- Rm)) by apply He.
    split; apply avg_le; try apply He; intros i Hi; apply B; auto.
  Qed.

  Lemma snipw_consistent arg eps : 0 < eps -> (forall o, position_arg (log_of e (ev_pb e) qh o) arg) ->
    prob (log_dist e) (fun o => let l := log_of e (ev_pb e) qh o in
      estimate_off (snipw_value false (rewards l) (actions l) (policy l) (Some (pscores l)) arg None) (policy_value e) eps)
    <= 16 * W * (Rm * Rm) / (INR (ev_n e) * (eps * eps)) + 4 * W / INR (ev_n e).
  Proof.
    intros Heps Harg. pose proof Rm_nonneg as HRm. pose proof value_bound as HV. assert (HN : 0 < INR (ev_n e)) by (apply lt_0_INR, He).
    set (V := policy_value e) in *.
    pose proof (chebyshev (round_dist e) (ev_n e) dev_term (W * (2 * Rm * (2 * Rm))) (eps / 2) (eo_n e He) ltac:(lra) (is_dist_round e He)) as C1.
    pose proof (chebyshev (round_dist e) (ev_n e) w_term (W * (1 * 1)) (1 / 2) (eo_n e He) ltac:(lra) (is_dist_round e He)) as C2.
    rewrite dev_mean in C1. rewrite w_mean in C2.
    eapply Rle_trans; [|apply Rplus_le_compat; [eapply Rle_trans; [apply C1|]|eapply Rle_trans; [apply C2|]]].
    - apply prob_union; [apply log_is_dist|]. intros o p Ho Hp Hoff.
      destruct (Rle_dec (eps / 2) _) as [|N1]; [left; reflexivity|]. right. destruct (Rle_dec (1 / 2) _) as [|N2]; [reflexivity|]. exfalso.
      apply Rnot_le_lt in N1, N2. set (l := log_of e (ev_pb e) qh o) in *.
      assert (Ew : forall i, w_term i (nth_error o i) = weight l i).
      { intros i. unfold w_term, weight, l, wgt. simpl. destruct (nth_error o i) as [[[x a] r]|]; [reflexivity|lra]. }
      assert (Ed : forall i, dev_term i (nth_error o i) = weight l i * lg_r l i - V * weight l i).
      { intros i. unfold dev_term, weight, l, wgt. simpl. fold V. destruct (nth_error o i) as [[[x a] r]|]; [ring|lra]. }
      rewrite (avg_ext _ _ (weight l)) in N2 by (intros; apply Ew).
      rewrite (avg_ext _ _ (fun i => weight l i * lg_r l i - V * weight l i)), Rminus_0_r in N1 by (intros; apply Ed).
      assert (B : 1 / 2 < avg (ev_n e) (weight l)) by (unfold Rabs in N2; destruct (Rcase_abs _); lra).
      assert (Hs : 0 < sumn (ev_n e) (weight l)).
      { unfold avg in B. apply (Rmult_lt_reg_r (/ INR (ev_n e))); [apply Rinv_0_lt_compat; lra|]. unfold Rdiv in B. lra. }
      cbv zeta in Hoff. rewrite snipw_value_ok in Hoff.
      + unfold estimate_off in Hoff. destruct (Rle_dec _ _) as [Hle|]; [|discriminate]. revert Hle. apply Rlt_not_le.
        unfold spec_snipw. change (lg_n l) with (ev_n e).
        replace (sumn (ev_n e) (fun i => weight l i * lg_r l i) / sumn (ev_n e) (weight l) - V)
          with (avg (ev_n e) (fun i => weight l i * lg_r l i - V * weight l i) / avg (ev_n e) (weight l)).
        2:{ rewrite avg_minus, avg_scal. unfold avg. field. lra. }
        unfold Rdiv. rewrite Rabs_mult, Rabs_inv, (Rabs_right (avg (ev_n e) (weight l))) by lra.
        apply (Rmult_lt_reg_r (avg (ev_n e) (weight l))); [lra|]. rewrite Rmult_assoc, Rinv_l, Rmult_1_r by lra.
        apply (Rlt_le_trans _ (eps / 2)); auto. nra.
      + eapply accepted_log; eauto.
      + apply Harg.
      + reflexivity.
      + change (lg_n l) with (ev_n e). lra.
    - intros i Hi. eapply Rle_trans; [|apply (weighted_moment i (fun _ _ r => r - V) (2 * Rm * (2 * Rm))); auto; [nra|]].
      + right. apply expect_ext_all. intros [[x a] r]. reflexivity.
      + intros x a r p Ha Hr Hp. apply sq_le; [lra|]. eapply Rle_trans; [apply Rabs_triang|]. rewrite Rabs_Ropp.
        pose proof (HR x (ev_pos e i) a r p Ha Hr Hp). lra.
    - right. field. split; lra.
    - intros i Hi. eapply Rle_trans; [|apply (weighted_moment i (fun _ _ _ => 1) (1 * 1)); auto; [lra|intros; lra]].
      right. apply expect_ext_all. intros [[x a] r]. simpl. ring.
    - right. field. lra.
  Qed.
End Env.
