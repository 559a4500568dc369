(** * P_BiasBound: what the high-probability upper bound of the bias guarantees (C134). *)

From Coq Require Import Reals List ZArith Lia Lra Bool.
From Verif Require Import Num NpList M_Utils M_Estimators M_Tuning S_Base S_Prob S_Estimators S_Env S_Tuning S_Bias S_Conc
  L_Num L_Base L_Prob L_Estimators L_EstProps L_Unbiased L_Conc L_Conc2 L_Conc3 L_Tuning S_Examples L_Examples P_Tuning P_Conc P_Bias.
Import ListNotations.
Open Scope R_scope.

(** ** Bernstein's inequality for independent, not identically distributed terms *)
Lemma mgf_bernstein_gen d M s : is_dist d -> 0 < M -> (forall x p, In (x, p) d -> p <> 0 -> x - mean d <= M) -> 0 <= s -> s * M < 3 ->
  expect d (fun x => exp (s * (x - mean d) - s * s * var d / (2 * (1 - s * M / 3)))) <= 1.
Proof.
  intros Hd Hb Hw Hs Hsb. set (m := mean d). set (v := var d). set (k := 2 * (1 - s * M / 3)).
  assert (Hk : 0 < k) by (unfold k; lra). assert (Hsb0 : 0 <= s * M) by (apply Rmult_le_pos; lra).
  apply (Rle_trans _ (expect d (fun x => (1 + s * (x - m) + s * (x - m) * (s * (x - m)) / k) * exp (- (s * s * v / k))))).
  - apply expect_le_supp; auto. intros x p Hx Hp. specialize (Hw x p Hx Hp). fold m in Hw.
    unfold Rminus at 1. rewrite exp_plus. apply Rmult_le_compat_r; [left; apply exp_pos|].
    apply exp_bernstein; [|lra]. apply Rmult_le_compat_l; lra.
  - rewrite expect_scal_r.
    replace (expect d (fun x => 1 + s * (x - m) + s * (x - m) * (s * (x - m)) / k)) with (1 + s * s * v / k).
    2:{ rewrite !expect_plus, (expect_const d 1 Hd), expect_scal. fold m. unfold m. rewrite centered by auto. fold m.
        rewrite (expect_ext_all d (fun x => s * (x - m) * (s * (x - m)) / k) (fun x => (s * s / k) * ((x - m) * (x - m)))) by (intros; field; lra).
        rewrite expect_scal. unfold v, var. fold m. field. lra. }
    apply (Rle_trans _ (exp (s * s * v / k) * exp (- (s * s * v / k)))).
    + apply Rmult_le_compat_r; [left; apply exp_pos|]. apply exp_ge_1.
    + rewrite <- exp_plus, Rplus_opp_r, exp_0. lra.
Qed.

Lemma bernstein_gen n (D : nat -> dist R) M v L : (0 < n)%nat -> (forall i, (i < n)%nat -> is_dist (D i)) -> 0 < M -> 0 < v -> 0 <= L ->
  (forall i x p, (i < n)%nat -> In (x, p) (D i) -> p <> 0 -> x - mean (D i) <= M) -> avg n (fun i => var (D i)) <= v ->
  prob (dprod n D) (fun o => if Rlt_dec (avg n (fun i => mean (D i)) + (sqrt (2 * v * L / INR n) + M * L / (3 * INR n))) (avg n (fun i => nth i o 0)) then true else false)
  <= exp (- L).
Proof.
  intros Hn Hd HM Hv HL0 Hw Hvar. assert (HN : 0 < INR n) by (apply lt_0_INR; auto).
  assert (HD : is_dist (dprod n D)) by (apply is_dist_dprod; auto).
  set (c := M / 3) in *. assert (Hc : 0 < c) by (unfold c; lra).
  assert (HNv : 0 < INR n * v) by (apply Rmult_lt_0_compat; lra).
  set (A := sqrt (2 * L / (INR n * v))). assert (HA : 0 <= A) by apply sqrt_pos.
  assert (HL : A * A * (INR n * v) = 2 * L).
  { unfold A. rewrite sqrt_sqrt by (apply Rmult_le_pos; [lra|left; apply Rinv_0_lt_compat; auto]). field. lra. }
  assert (EA : sqrt (2 * v * L / INR n) = v * A).
  { unfold A. rewrite <- (sqrt_square v) at 2 by lra. rewrite <- sqrt_mult; [f_equal; field; lra|apply Rle_0_sqr|].
    apply Rmult_le_pos; [lra|left; apply Rinv_0_lt_compat; auto]. }
  rewrite EA.
  set (s := A / (1 + c * A)). assert (Hden : 0 < 1 + c * A) by nra.
  assert (Hs : 0 <= s) by (unfold s; apply Rmult_le_pos; [lra|left; apply Rinv_0_lt_compat; lra]).
  assert (Hsb : s * M < 3).
  { replace M with (3 * c) by (unfold c; field). apply (Rmult_lt_reg_r (1 + c * A)); [lra|]. unfold s.
    replace (A / (1 + c * A) * (3 * c) * (1 + c * A)) with (3 * (c * A)) by (field; lra). lra. }
  assert (Hk : 2 * (1 - s * M / 3) = 2 / (1 + c * A)) by (unfold s; replace M with (3 * c) by (unfold c; field); field; lra).
  set (g := fun i x => s * (x - mean (D i)) - s * s * var (D i) / (2 * (1 - s * M / 3))).
  apply (Rle_trans _ (expect (dprod n D) (fun o => exp (- L) * exp (sumn n (fun i => g i (nth i o 0)))))).
  - apply prob_le_expect; auto.
    + intros. apply Rmult_le_pos; left; apply exp_pos.
    + intros o p Ho Hp E. destruct (Rlt_dec _ _) as [Hlt|]; [|discriminate].
      rewrite <- exp_plus. apply (Rle_trans _ (exp 0)); [rewrite exp_0; lra|]. apply exp_le. unfold g.
      rewrite sumn_minus, sumn_scal, sumn_minus. rewrite Hk.
      rewrite (sumn_ext n (fun i => s * s * var (D i) / (2 / (1 + c * A))) (fun i => s * s / (2 / (1 + c * A)) * var (D i))) by (intros; field; lra).
      rewrite sumn_scal. unfold avg in Hlt, Hvar. set (S1 := sumn n (fun i => nth i o 0)) in *.
      set (S2 := sumn n (fun i => mean (D i))) in *. set (S3 := sumn n (fun i => var (D i))) in *.
      assert (H3 : S3 <= INR n * v).
      { apply (Rmult_le_reg_r (/ INR n)); [apply Rinv_0_lt_compat; auto|]. replace (INR n * v * / INR n) with v by (field; lra). exact Hvar. }
      assert (Hdiff : INR n * (v * A) + c * L <= S1 - S2).
      { apply Rlt_le. apply (Rmult_lt_reg_r (/ INR n)); [apply Rinv_0_lt_compat; auto|]. unfold Rdiv in Hlt.
        replace ((INR n * (v * A) + c * L) * / INR n) with (v * A + M * L * / (3 * INR n)) by (unfold c; field; lra).
        replace ((S1 - S2) * / INR n) with (S1 * / INR n - S2 * / INR n) by ring. lra. }
      apply (Rle_trans _ (- L + (s * (INR n * (v * A) + c * L) - s * s / (2 / (1 + c * A)) * (INR n * v)))).
      * right. unfold s.
        replace (A / (1 + c * A) * (INR n * (v * A) + c * L) - A / (1 + c * A) * (A / (1 + c * A)) / (2 / (1 + c * A)) * (INR n * v))
          with ((A * A * (INR n * v) / 2 + c * A * L) / (1 + c * A)) by (field; lra).
        rewrite HL. field. lra.
      * apply Rplus_le_compat_l. apply Rplus_le_compat; [apply Rmult_le_compat_l; auto|]. apply Ropp_le_contravar.
        apply Rmult_le_compat_l; auto. unfold Rdiv at 1. apply Rmult_le_pos; [apply Rle_0_sqr|]. left. apply Rinv_0_lt_compat.
        apply Rdiv_lt_0_compat; lra.
  - rewrite expect_scal. rewrite <- (Rmult_1_r (exp (- L))) at 2. apply Rmult_le_compat_l; [left; apply exp_pos|].
    apply (expect_dprod_exp_le1 n D g); auto. intros i Hi. apply mgf_bernstein_gen; auto. intros x p. apply Hw; auto.
Qed.

Lemma shrinking_le m lam w : shrinking m lam -> 0 <= w -> Rabs (w - modified m lam w) <= w.
Proof.
  intros Hs Hw. destruct m, lam as [x|]; cbn in *; try easy; try (rewrite Rminus_eq_0, Rabs_R0; auto; fail).
  - pose proof (Rmin_l w x). assert (0 <= Rmin w x) by (apply Rmin_glb; auto). apply Rabs_le. lra.
  - destruct (Rle_dec w x); apply Rabs_le; lra.
  - assert (0 <= w * w) by apply Rle_0_sqr. assert (H1 : 0 <= x * w / (w * w + x)).
    { unfold Rdiv. apply Rmult_le_pos; [apply Rmult_le_pos; lra|left; apply Rinv_0_lt_compat; lra]. }
    assert (H2 : x * w / (w * w + x) <= w).
    { apply (Rmult_le_reg_r (w * w + x)); [lra|]. unfold Rdiv. rewrite Rmult_assoc, Rinv_l by lra. nra. }
    apply Rabs_le. lra.
  - assert (Hd : 1/2 <= 1 - x + x * w) by nra. assert (H1 : 0 <= w / (1 - x + x * w)).
    { unfold Rdiv. apply Rmult_le_pos; [lra|left; apply Rinv_0_lt_compat; lra]. }
    assert (H2 : w / (1 - x + x * w) <= 2 * w).
    { apply (Rmult_le_reg_r (1 - x + x * w)); [lra|]. unfold Rdiv. rewrite Rmult_assoc, Rinv_l by lra. nra. }
    apply Rabs_le. lra.
Qed.

Lemma abs_sign sg z : sg = 1 \/ sg = -1 -> Rabs (sg * z) = Rabs z.
Proof. intros [->| ->]; [rewrite Rmult_1_l; reflexivity|]. replace (-1 * z) with (- z) by ring. apply Rabs_Ropp. Qed.

Lemma abs_le_inv z y : Rabs z <= y -> - y <= z <= y.
Proof. intros H. unfold Rabs in H. destruct (Rcase_abs z); lra. Qed.

Lemma round_support {X} (e : benv X) i x a r p : env_ok e -> In ((x, a, r), p) (round_dist e i) -> p <> 0 ->
  (a < ev_K e)%nat /\ 0 < ev_pb e x (ev_pos e i) a /\ exists q, In (r, q) (ev_rd e x (ev_pos e i) a) /\ q <> 0.
Proof.
  intros He Hin Hp. destruct (In_round e He i x a r p Hin Hp) as [Ha Hb]. split; auto. split; auto.
  unfold round_dist in Hin. apply In_dbind in Hin as (x' & p1 & p2 & Hx & H & ->). apply In_dbind in H as (a' & p3 & p4 & Ha' & H & ->).
  apply In_dmap in H as (r' & E & Hr). injection E as <- <- <-. exists p4. split; auto. intros Z. apply Hp. rewrite Z. ring.
Qed.

Lemma weights_sum {X} (e : benv X) x s : env_ok e -> common_support e -> sumn (ev_K e) (fun a => ev_pb e x s a * true_weight e x s a) = 1.
Proof. intros He Hcs. rewrite <- (eo_pe1 e He x s). apply sumn_ext. intros a Ha. apply weight_cancels; auto. Qed.

Lemma max_weight_ge1 {X} (e : benv X) W : env_ok e -> common_support e -> weights_at_most e W -> 1 <= W.
Proof.
  intros He Hcs HW. pose proof (eo_n e He) as Hn. pose proof (eo_ctx e He 0%nat Hn) as Hd.
  rewrite <- (expect_const (ev_ctx e 0) 1 Hd), <- (expect_const (ev_ctx e 0) W Hd). apply expect_le_supp; auto. intros x p _ _.
  rewrite <- (weights_sum e x 0 He Hcs). replace W with (sumn (ev_K e) (fun a => W * ev_pb e x 0 a)) by (rewrite sumn_scal, (eo_pb1 e He); ring).
  apply sumn_le. intros a Ha. rewrite (Rmult_comm W). destruct (Rle_lt_or_eq_dec 0 _ (eo_pb0 e He x 0 a Ha)) as [Hb|Hz]; [|rewrite <- Hz; lra].
  apply Rmult_le_compat_l; [lra|]. apply HW; auto.
Qed.

Lemma weight_moment_ge1 {X} (e : benv X) : env_ok e -> common_support e -> 1 <= weight_moment e.
Proof.
  intros He Hcs. unfold weight_moment. rewrite <- (avg_const (ev_n e) 1) by apply He. apply avg_le; [apply He|]. intros i Hi.
  rewrite <- (expect_const (ev_ctx e i) 1) by (apply He; auto). apply expect_le_supp; [apply He; auto|]. intros x p _ _. cbv zeta. set (s := ev_pos e i).
  replace 1 with (sumn (ev_K e) (fun a => 2 * (ev_pb e x s a * true_weight e x s a) - ev_pb e x s a))
    by (rewrite sumn_minus, sumn_scal, weights_sum, (eo_pb1 e He) by auto; ring).
  apply sumn_le. intros a Ha. pose proof (eo_pb0 e He x s a Ha). set (w := true_weight e x s a). set (q := ev_pb e x s a) in *.
  assert (0 <= q * ((w - 1) * (w - 1))) by (apply Rmult_le_pos; [auto|apply Rle_0_sqr]). lra.
Qed.

(** If the logged weights are at least as spread out as the population, the reported bound fails with probability at most
    delta; without further knowledge the failure probability exceeds delta by at most that of an unrepresentative log. *)
Theorem C134_bound_valid : forall X (e : benv X) (qh : X -> nat -> nat -> R) (dr : bool) m lam W delta,
  env_ok e -> common_support e -> 0 < delta <= 1 -> shrinking m lam -> weights_at_most e W ->
  (forall x s a r p, (a < ev_K e)%nat -> In (r, p) (ev_rd e x s a) -> p <> 0 -> Rabs (r - (if dr then qh x a s else 0)) <= 1) ->
  let report l := estimate_high_probability_upper_bound_bias (rewards l) (tabF (lg_n l) (weight l))
      (tabF (lg_n l) (fun i => modified m lam (weight l i)))
      (if dr then Some (tabF (lg_n l) (fun i => lg_q l i (lg_a l i) (lg_pos l i))) else None) delta in
  let fails o := under_reported (report (log_of e (ev_pb e) qh o)) (Rabs (lost_value e dr qh m lam)) in
  let rep o := representative e W (log_of e (ev_pb e) qh o) in
  prob (log_dist e) (fun o => fails o && rep o) <= delta /\
  prob (log_dist e) fails <= delta + prob (log_dist e) (fun o => negb (rep o)).
Proof.
  intros X e qh dr m lam W delta He Hcs Hdel Hsh HW HR report fails rep.
  assert (Hn : (0 < ev_n e)%nat) by apply He. assert (HN : 0 < INR (ev_n e)) by (apply lt_0_INR; auto).
  assert (HD : forall i, (i < ev_n e)%nat -> is_dist (round_dist e i)) by (intros; apply is_dist_round; auto).
  assert (HP : is_dist (log_dist e)) by (apply is_dist_dprod; auto).
  assert (HW1 : 1 <= W) by (apply (max_weight_ge1 e); auto). pose proof (weight_moment_ge1 e He Hcs) as Hv1. set (v := weight_moment e) in *.
  set (L := ln (2 / delta)).
  assert (HL : 0 < L).
  { unfold L. rewrite <- ln_1. apply ln_increasing; [lra|]. apply (Rmult_lt_reg_r delta); [lra|]. unfold Rdiv. rewrite Rmult_assoc, Rinv_l; lra. }
  assert (HeL : exp (- L) = delta / 2).
  { unfold L. replace (2 / delta) with (/ (delta / 2)) by (field; lra). rewrite ln_Rinv by lra. rewrite Ropp_involutive, exp_ln; lra. }
  set (loss := round_loss e dr qh m lam). set (lost := lost_value e dr qh m lam).
  set (tt := sqrt (2 * v * L / INR (ev_n e)) + 2 * W * L / (3 * INR (ev_n e))).
  (* every term is at most the weight *)
  assert (HB : forall i x a r p, (i < ev_n e)%nat -> In ((x, a, r), p) (round_dist e i) -> p <> 0 ->
     0 <= true_weight e x (ev_pos e i) a <= W /\ Rabs (loss i (x, a, r)) <= true_weight e x (ev_pos e i) a).
  { intros i x a r p Hi Hin Hp. destruct (round_support e i x a r p He Hin Hp) as (Ha & Hb & q & Hq & Hq0).
    assert (Hw : 0 <= true_weight e x (ev_pos e i) a <= W) by (split; [apply true_weight_nonneg|apply HW]; auto). split; auto.
    unfold loss, round_loss. rewrite Rabs_mult. rewrite <- (Rmult_1_r (true_weight e x (ev_pos e i) a)) at 3.
    apply Rmult_le_compat; try apply Rabs_pos; [apply shrinking_le; tauto|]. apply (HR x (ev_pos e i) a r q); auto. }
  assert (Ll : avg (ev_n e) (fun i => expect (round_dist e i) (loss i)) = lost).
  { unfold lost, lost_value. apply avg_ext. intros i Hi. unfold loss, round_loss.
    rewrite (expect_round e i _ (fun x a r => (true_weight e x (ev_pos e i) a - modified m lam (true_weight e x (ev_pos e i) a)) * (r - (if dr then qh x a (ev_pos e i) else 0)))) by reflexivity.
    apply expect_ext_all. intros x. apply sumn_ext. intros a Ha. cbv zeta.
    rewrite expect_scal, expect_minus, expect_const by (apply He). unfold unexplained, q_true. ring. }
  (* one-sided tails for the terms and their opposites *)
  assert (Tail : forall sg, sg = 1 \/ sg = -1 ->
    prob (log_dist e) (fun o => if Rlt_dec (sg * lost + tt) (avg (ev_n e) (fun i => sg * match nth_error o i with Some y => loss i y | None => 0 end)) then true else false) <= delta / 2).
  { intros sg Hsg. set (G := fun (i : nat) (y : option (X * nat * R)) => sg * match y with Some y => loss i y | None => 0 end).
    set (T := fun i => dmap (fun y => G i (Some y)) (round_dist e i)).
    assert (HT : forall i, (i < ev_n e)%nat -> is_dist (T i)) by (intros; apply is_dist_dmap; auto).
    assert (MT : forall i, mean (T i) = sg * expect (round_dist e i) (loss i)).
    { intros i. unfold mean, T. rewrite expect_dmap. unfold G. rewrite expect_scal. reflexivity. }
    assert (Bm : forall i, (i < ev_n e)%nat -> - W <= mean (T i)).
    { intros i Hi. rewrite <- (expect_const (T i) (- W)) by auto. unfold mean. apply expect_le_supp; auto. intros y p Hy Hp.
      apply In_dmap in Hy as ([[x a] r] & -> & Hin). destruct (HB i x a r p Hi Hin Hp) as [Hw Hl]. unfold G.
      assert (Rabs (sg * loss i (x, a, r)) <= W) by (rewrite abs_sign by auto; lra).
      apply abs_le_inv in H. lra. }
    pose proof (bernstein_gen (ev_n e) T (2 * W) v L Hn HT ltac:(lra) ltac:(lra) ltac:(lra)) as Bn.
    assert (P1 : forall i x p, (i < ev_n e)%nat -> In (x, p) (T i) -> p <> 0 -> x - mean (T i) <= 2 * W).
    { intros i y p Hi Hy Hp. pose proof (Bm i Hi). apply In_dmap in Hy as ([[x a] r] & -> & Hin). destruct (HB i x a r p Hi Hin Hp) as [Hw Hl]. unfold G.
      assert (Rabs (sg * loss i (x, a, r)) <= W) by (rewrite abs_sign by auto; lra).
      apply abs_le_inv in H0. lra. }
    assert (P2 : avg (ev_n e) (fun i => var (T i)) <= v).
    { unfold v, weight_moment. apply avg_le; auto. intros i Hi. unfold var. rewrite MT. unfold T. rewrite expect_dmap. unfold G. rewrite <- expect_scal.
      eapply Rle_trans; [apply (variance_le_second (round_dist e i) (fun y => sg * loss i y)); auto|].
      eapply Rle_trans; [apply (expect_le_supp _ _ (fun y => let '(x, a, _) := y in true_weight e x (ev_pos e i) a * true_weight e x (ev_pos e i) a)); auto|].
      - intros [[x a] r] p Hin Hp. destruct (HB i x a r p Hi Hin Hp) as [Hw Hl].
        apply sq_le; [tauto|]. rewrite abs_sign by auto. lra.
      - rewrite (expect_round e i _ (fun x a _ => true_weight e x (ev_pos e i) a * true_weight e x (ev_pos e i) a)) by reflexivity.
        right. apply expect_ext_all. intros x. apply sumn_ext. intros a Ha. rewrite expect_const by (apply He). cbv zeta. ring. }
    specialize (Bn P1 P2). rewrite HeL in Bn. unfold prob in Bn |- *. unfold T in Bn at 1. rewrite (expect_dprod_map (ev_n e) (round_dist e) G) in Bn.
    unfold log_dist. eapply Rle_trans; [|exact Bn]. right. apply expect_ext_all. intros o.
    replace (avg (ev_n e) (fun i => mean (T i))) with (sg * lost).
    2:{ rewrite <- Ll, <- avg_scal. apply avg_ext. intros i Hi. symmetry. apply MT. }
    fold tt. rewrite (avg_ext _ (fun i => nth i (tab (ev_n e) (fun i0 => G i0 (nth_error o i0))) 0) (fun i => G i (nth_error o i))) by (intros i Hi; rewrite nth_tab by auto; reflexivity).
    reflexivity. }
  assert (Run : forall o p, In (o, p) (log_dist e) -> p <> 0 -> let l := log_of e (ev_pb e) qh o in
     exists w, is_max (lg_n l) (weight l) w /\ report l = Ok (Fin (Rabs (avg (ev_n e) (fun i => match nth_error o i with Some y => loss i y | None => 0 end))
       + sqrt (2 * avg (ev_n e) (fun i => weight l i * weight l i) * L / INR (ev_n e)) + 2 * w * L / (3 * INR (ev_n e))))).
  { intros o p Ho Hp l. destruct (nmaxl_tabF (lg_n l) (weight l) Hn) as (w & _ & Hw). exists w. split; auto. unfold report, rewards.
    apply (ub_bias_ok (lg_n l)); auto.
    assert (E : avg (ev_n e) (fun i => match nth_error o i with Some y => loss i y | None => 0 end)
      = avg (lg_n l) (fun i => (weight l i - modified m lam (weight l i)) * residual dr l i)).
    { apply avg_ext. intros i Hi. destruct (In_dprod_opt _ _ _ _ Ho Hp i Hi) as ([[x a] r] & q & E & _ & _).
      unfold loss, round_loss, weight, residual, q_at, true_weight. cbn [lg_r lg_q lg_pi lg_a lg_p lg_pos log_of l]. rewrite E.
      destruct dr; [reflexivity|]. rewrite Rminus_0_r. reflexivity. }
    rewrite E. destruct dr; [rewrite bias_q_ok by auto|rewrite bias_ok by auto]; reflexivity. }
  assert (Main : prob (log_dist e) (fun o => fails o && rep o) <= delta).
  { apply (Rle_trans _ (delta / 2 + delta / 2)); [|lra].
    eapply Rle_trans; [|apply Rplus_le_compat; [apply (Tail 1); auto|apply (Tail (-1)); auto]].
    apply prob_union; auto. intros o p Ho Hp Hev. apply andb_true_iff in Hev as [Hf Hrep]. unfold fails in Hf.
    destruct (Run o p Ho Hp) as (w & Hmax & E). rewrite E in Hf. unfold under_reported in Hf. destruct (Rlt_dec _ _) as [Hlt|] in Hf; [|discriminate].
    unfold rep, representative in Hrep. apply andb_true_iff in Hrep as [H2 H3]. destruct (Rle_dec _ _) as [Hm2|] in H2; [|discriminate]. clear H2 Hf.
    apply existsb_exists in H3 as (i & Hi & HWi). apply in_seq in Hi. destruct (Rle_dec _ _) as [HWi'|] in HWi; [|discriminate]. clear HWi.
    assert (Hww : W <= w) by (destruct Hmax as [_ Hmax]; eapply Rle_trans; [exact HWi'|apply Hmax; lia]).
    set (av := avg (ev_n e) (fun i0 => match nth_error o i0 with Some y => loss i0 y | None => 0 end)) in *.
    assert (T1 : sqrt (2 * v * L / INR (ev_n e)) <= sqrt (2 * avg (ev_n e) (fun i0 => weight (log_of e (ev_pb e) qh o) i0 * weight (log_of e (ev_pb e) qh o) i0) * L / INR (ev_n e))).
    { apply sqrt_le_1_alt. unfold Rdiv. apply Rmult_le_compat_r; [left; apply Rinv_0_lt_compat; auto|]. apply Rmult_le_compat_r; [lra|].
      apply Rmult_le_compat_l; [lra|]. exact Hm2. }
    assert (T2 : 2 * W * L / (3 * INR (ev_n e)) <= 2 * w * L / (3 * INR (ev_n e))).
    { unfold Rdiv. apply Rmult_le_compat_r; [left; apply Rinv_0_lt_compat; lra|]. apply Rmult_le_compat_r; [lra|]. lra. }
    assert (Hd : tt < Rabs (lost - av)).
    { unfold tt. pose proof (Rabs_triang (lost - av) av) as Ht. replace (lost - av + av) with lost in Ht by ring. fold lost in Hlt. lra. }
    rewrite !avg_scal. fold av. unfold Rabs in Hd. destruct (Rcase_abs (lost - av)) as [Hneg|Hpos].
    - left. destruct (Rlt_dec _ _) as [|N]; [reflexivity|]. lra.
    - right. destruct (Rlt_dec _ _) as [|N]; [reflexivity|]. lra. }
  split; [exact Main|]. eapply Rle_trans; [|apply Rplus_le_compat_r; exact Main].
  apply prob_union; auto. intros o p _ _ Hf. rewrite Hf. destruct (rep o); auto.
Qed.

(** ** Without that knowledge the bound fails: an environment whose large weights are almost never logged *)
Definition rare_env (n : nat) (eps : R) : benv unit := {|
  ev_n := n; ev_K := 2; ev_L := 1; ev_pos := fun _ => 0%nat;
  ev_ctx := fun _ => [(tt, 1)];
  ev_pb := fun _ _ a => nth a [eps; 1 - eps] 0;
  ev_pe := fun _ a _ => nth a [1; 0] 0;
  ev_rd := fun _ _ _ => [(1, 1)] |}.

Lemma rare_env_ok n eps : (0 < n)%nat -> 0 < eps < 1 -> env_ok (rare_env n eps) /\ common_support (rare_env n eps).
Proof.
  intros Hn He. split.
  - constructor; simpl; intros; auto; try lia.
    + split; [|simpl; lra]. intros a p [E|[]]. injection E as <- <-. lra.
    + idx a; simpl; try lia; lra.
    + lra.
    + idx a; simpl; try lia; lra.
    + lra.
    + split; [|simpl; lra]. intros b p [E|[]]. injection E as <- <-. lra.
  - intros x a s Ha. simpl in *. idx a; simpl; try lia; lra.
Qed.

Lemma prodf_ge n x : 0 <= x <= 1 -> 0 <= prodf n (fun _ => 1 - x) <= 1 /\ 1 - INR n * x <= prodf n (fun _ => 1 - x).
Proof.
  intros Hx. assert (B : 0 <= prodf n (fun _ => 1 - x) <= 1) by (apply prodf_le1; intros; lra). split; [exact B|].
  induction n; [simpl; lra|]. rewrite S_INR. cbn [prodf]. assert (B' : 0 <= prodf n (fun _ => 1 - x) <= 1) by (apply prodf_le1; intros; lra).
  specialize (IHn B'). nra.
Qed.

Lemma prodf_01 {A} n (t : nat -> A -> bool) (o : nat -> A) :
  prodf n (fun i => if t i (o i) then 1 else 0) = 0 \/
  (prodf n (fun i => if t i (o i) then 1 else 0) = 1 /\ forall i, (i < n)%nat -> t i (o i) = true).
Proof.
  induction n; [right; split; [reflexivity|lia]|]. cbn [prodf]. destruct IHn as [->|[-> H]]; [left; ring|].
  destruct (t n (o n)) eqn:E; [right|left; ring]. split; [ring|]. intros i Hi. destruct (Nat.eq_dec i n) as [->|]; auto. apply H. lia.
Qed.

Theorem C134_unrepresentative_refuted : forall n delta, (0 < n)%nat -> 0 < delta < 1 ->
  exists e : benv unit, ev_n e = n /\ env_ok e /\ common_support e /\
    (forall x s a r p, In (r, p) (ev_rd e x s a) -> Rabs (r - 0) <= 1) /\ shrinking Clipping (Some 1) /\
    let report l := estimate_high_probability_upper_bound_bias (rewards l) (tabF (lg_n l) (weight l))
        (tabF (lg_n l) (fun i => modified Clipping (Some 1) (weight l i))) None delta in
    delta < prob (log_dist e) (fun o => under_reported (report (log_of e (ev_pb e) (fun _ _ _ => 0) o)) (Rabs (lost_value e false (fun _ _ _ => 0) Clipping (Some 1)))).
Proof.
  intros n delta Hn Hd. assert (HN : 1 <= INR n) by (apply (le_INR 1); lia). set (eps := (1 - delta) / (2 * INR n)).
  assert (He : 0 < eps) by (unfold eps; apply Rdiv_lt_0_compat; lra).
  assert (Hne : INR n * eps = (1 - delta) / 2) by (unfold eps; field; lra).
  assert (He1 : eps < 1) by nra.
  destruct (rare_env_ok n eps Hn ltac:(lra)) as [Hok Hcs]. exists (rare_env n eps). split; [reflexivity|]. split; [auto|]. split; [auto|].
  split; [|split; [simpl; lra|]].
  { intros x s a r p [E|[]]. injection E as <- <-. rewrite Rminus_0_r, Rabs_R1. lra. }
  intros report. set (e := rare_env n eps) in *.
  assert (El : lost_value e false (fun _ _ _ => 0) Clipping (Some 1) = 1 - eps).
  { unfold lost_value. rewrite <- (avg_const n (1 - eps)) by auto. apply avg_ext. intros i Hi. unfold unexplained, q_true, true_weight, e. simpl.
    assert (H1 : 1 < 1 / eps) by (apply (Rmult_lt_reg_r eps); [auto|]; unfold Rdiv; rewrite Rmult_assoc, Rinv_l; lra).
    rewrite (Rmin_right (1 / eps) 1) by lra. replace (0 / (1 - eps)) with 0 by (unfold Rdiv; ring). rewrite (Rmin_left 0 1) by lra. field. lra. }
  rewrite El, Rabs_right by lra.
  apply (Rlt_le_trans _ (1 - INR n * eps)); [lra|]. apply (Rle_trans _ _ _ (proj2 (prodf_ge n eps ltac:(lra)))).
  assert (HD : forall i, (i < n)%nat -> is_dist (round_dist e i)) by (intros; apply is_dist_round; auto).
  set (hit := fun (i : nat) (y : unit * nat * R) => let '(_, a, _) := y in Nat.eqb a 1).
  assert (Ehit : forall i, expect (round_dist e i) (fun y => if hit i y then 1 else 0) = 1 - eps).
  { intros i. unfold e, round_dist, hit. simpl. ring. }
  rewrite (prodf_ext n (fun _ => 1 - eps) (fun i => expect (round_dist e i) (fun y => if hit i y then 1 else 0))) by (intros; rewrite Ehit; reflexivity).
  rewrite <- (expect_dprod_prodf n (round_dist e) (fun i y => if hit i y then 1 else 0) (tt, 0%nat, 0)).
  unfold prob. apply expect_le_supp; [apply is_dist_dprod; auto|]. intros o p Ho Hp.
  destruct (prodf_01 n hit (fun i => nth i o (tt, 0%nat, 0))) as [->|[-> H]]; [destruct (under_reported _ _); lra|].
  assert (Hw : forall i, (i < n)%nat -> weight (log_of e (ev_pb e) (fun _ _ _ => 0) o) i = 0).
  { intros i Hi. destruct (In_dprod_opt _ _ _ _ Ho Hp i Hi) as ([[x a] r] & q & E & _ & _). specialize (H i Hi).
    rewrite (nth_error_nth o i _ E) in H. unfold hit in H. apply Nat.eqb_eq in H. subst a. unfold weight. cbn [lg_pi lg_a lg_p lg_pos log_of]. rewrite E.
    unfold e. simpl. unfold Rdiv. ring. }
  set (l := log_of e (ev_pb e) (fun _ _ _ => 0) o) in *.
  assert (Hmax : is_max (lg_n l) (weight l) 0).
  { split; [exists 0%nat; split; auto|]. intros i Hi. rewrite Hw by auto. lra. }
  assert (R0 : report l = Ok (Fin 0)).
  { unfold report, rewards. rewrite (ub_bias_ok (lg_n l) _ _ _ None 0 delta 0 Hn ltac:(lra) Hmax).
    - rewrite (avg_ext (lg_n l) _ (fun _ => 0)) by (intros i Hi; rewrite Hw by auto; ring). rewrite avg_const by auto.
      do 2 f_equal. replace (2 * 0 * ln (2 / delta) / INR (lg_n l)) with 0 by (unfold Rdiv; ring). rewrite sqrt_0. unfold Rdiv. ring.
    - rewrite bias_ok by auto. do 2 f_equal. rewrite (avg_ext (lg_n l) _ (fun _ => 0)); [rewrite avg_const by auto; apply Rabs_R0|].
      intros i Hi. rewrite Hw by auto. simpl. rewrite Rmin_left by lra. ring. }
  rewrite R0. unfold under_reported. destruct (Rlt_dec 0 (1 - eps)); lra.
Qed.

(** The hypotheses of [C134_bound_valid] hold in the example environment. *)
Example C134_case : env_ok ex_env /\ common_support ex_env /\ weights_at_most ex_env 2 /\ shrinking Clipping (Some 1) /\
  (forall x s a r p, (a < ev_K ex_env)%nat -> In (r, p) (ev_rd ex_env x s a) -> p <> 0 -> Rabs (r - 0) <= 1) /\
  lost_value ex_env false (fun _ _ _ => 0) Clipping (Some 1) = 1 / 24.
Proof.
  destruct C132_case as (H1 & H2 & H3 & _ & _ & H4 & _). split; [auto|]. split; [auto|]. split; [auto|]. split; [simpl; lra|]. split; [|auto].
  intros x s a r p Ha Hr _. rewrite Rminus_0_r. simpl in Hr. destruct x; simpl in Hr; destruct Hr as [E|[E|[]]]; injection E as <- <-; rewrite ?Rabs_R1, ?Rabs_R0; lra.
Qed.

Print Assumptions C134_bound_valid.
Print Assumptions C134_unrepresentative_refuted.
