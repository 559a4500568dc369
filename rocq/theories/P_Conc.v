(** * P_Conc: confidence bounds and consistency. *)

From Coq Require Import Reals List ZArith Bool Lia Lra.
From Verif Require Import Num NpList M_Utils M_Estimators S_Base S_Prob S_Conc S_Estimators S_Env S_Tuning S_Examples
  L_Num L_Base L_Prob L_Estimators L_Unbiased L_Tuning L_Examples L_Conc L_Conc2 L_Conc3.
Import ListNotations.
Open Scope R_scope.

Lemma tab_of_support n (D : nat -> dist R) o p : In (o, p) (dprod n D) -> p <> 0 -> map Fin o = tabF n (fun i => nth i o 0).
Proof. intros Ho Hp. destruct (In_dprod n D o p Ho Hp) as [Hl _]. unfold tabF. rewrite (list_tab o 0) at 1. rewrite map_tab, Hl. reflexivity. Qed.

Lemma support_within n (D : nat -> dist R) lo hi o p : (forall i, (i < n)%nat -> within (D i) lo hi) -> In (o, p) (dprod n D) -> p <> 0 ->
  forall i, (i < n)%nat -> lo <= nth i o 0 <= hi.
Proof. intros H Ho Hp i Hi. destruct (In_dprod n D o p Ho Hp) as [_ H']. destruct (H' i 0 Hi) as (q & Hq & Hq0). eapply H; eauto. Qed.

(** ** C119 *)
Theorem C119_hoeffding_valid : forall n (D : nat -> dist R) b delta, (0 < n)%nat -> 0 < delta <= 1 ->
  (forall i, (i < n)%nat -> is_dist (D i) /\ within (D i) 0 b) ->
  prob (dprod n D) (fun o => bound_fails (estimate_hoeffding_lower_bound (map Fin o) (Some b) delta) (avg n (fun i => mean (D i)))) <= delta.
Proof.
  intros n D b delta Hn Hdel H. assert (HN : 0 < INR n) by (apply lt_0_INR; auto).
  assert (HD : is_dist (dprod n D)) by (apply is_dist_dprod; intros; apply H; auto).
  assert (Hb : 0 <= b) by (destruct (H 0%nat Hn) as [Hd Hw]; pose proof (mean_within _ _ _ Hd Hw); lra).
  assert (Hln : 0 <= ln (1 / delta)).
  { rewrite <- ln_1. destruct (Req_dec delta 1) as [->|]; [right; f_equal; lra|]. left. apply ln_increasing; [lra|].
    apply (Rmult_lt_reg_r delta); [lra|]. unfold Rdiv. rewrite Rmult_assoc, Rinv_l; lra. }
  assert (Hrun : forall o p, In (o, p) (dprod n D) -> p <> 0 ->
     estimate_hoeffding_lower_bound (map Fin o) (Some b) delta = Ok (Fin (avg n (fun i => nth i o 0) - b * sqrt (ln (1 / delta) / (2 * INR n))))).
  { intros o p Ho Hp. rewrite (tab_of_support n D o p Ho Hp). apply hoeffding_ok; auto. intros i Hi.
    apply (support_within n D 0 b o p); auto. intros j Hj. apply H. auto. }
  destruct (Req_dec b 0) as [Eb|Nb].
  - rewrite prob_impossible; [lra|]. intros o p Ho Hp. rewrite (Hrun o p Ho Hp). unfold bound_fails.
    destruct (Rlt_dec _ _) as [Hlt|]; [|reflexivity]. exfalso. revert Hlt. rewrite Eb.
    rewrite (avg_ext n (fun i => nth i o 0) (fun _ => 0)), (avg_ext n (fun i => mean (D i)) (fun _ => 0)); [rewrite avg_const by auto; lra| |].
    + intros i Hi. destruct (H i Hi) as [Hd Hw]. pose proof (mean_within _ _ _ Hd Hw). lra.
    + intros i Hi. pose proof (support_within n D 0 b o p ltac:(intros j Hj; apply H; auto) Ho Hp i Hi). lra.
  - set (t := b * sqrt (ln (1 / delta) / (2 * INR n))).
    assert (Hq : 0 <= ln (1 / delta) / (2 * INR n)) by (apply Rmult_le_pos; [lra|left; apply Rinv_0_lt_compat; lra]).
    assert (Ht : 0 <= t) by (unfold t; apply Rmult_le_pos; [lra|apply sqrt_pos]).
    pose proof (hoeffding n D b t Hn ltac:(lra) Ht H) as P.
    replace (exp (- (2 * INR n * (t * t) / (b * b)))) with delta in P.
    2:{ replace (2 * INR n * (t * t) / (b * b)) with (ln (1 / delta)).
        - unfold Rdiv at 1. rewrite Rmult_1_l, ln_Rinv by lra. rewrite Ropp_involutive, exp_ln; lra.
        - unfold t. replace (b * sqrt (ln (1 / delta) / (2 * INR n)) * (b * sqrt (ln (1 / delta) / (2 * INR n))))
            with (b * b * (sqrt (ln (1 / delta) / (2 * INR n)) * sqrt (ln (1 / delta) / (2 * INR n)))) by ring.
          rewrite sqrt_sqrt by auto. field. split; lra. }
    eapply Rle_trans; [|exact P]. apply expect_le_supp; auto. intros o p Ho Hp. rewrite (Hrun o p Ho Hp). unfold bound_fails. fold t.
    destruct (Rlt_dec _ _), (Rlt_dec _ _); lra.
Qed.

(** Without [0 <= x] the bound is not valid at any level: the code accepts such data and an [x_max] that bounds it. *)
Theorem C119_negative_refuted : forall delta, 0 < delta < 1 -> exists d, is_dist d /\ within d (-1) 0 /\
  delta < prob (dprod 1 (fun _ => d)) (fun o => bound_fails (estimate_hoeffding_lower_bound (map Fin o) (Some 0) delta) (mean d)).
Proof.
  intros delta Hd. set (q := (1 - delta) / 2). exists [(-1, q); (0, 1 - q)].
  assert (Hq : 0 < q < 1) by (unfold q; lra).
  assert (Em : mean [(-1, q); (0, 1 - q)] = - q) by (unfold mean; simpl; lra).
  split; [split; [|simpl; lra]|split].
  - intros a p [E|[E|[]]]; injection E as <- <-; lra.
  - intros a p [E|[E|[]]] _; injection E as <- <-; lra.
  - rewrite Em. assert (R1 : forall x, x <= 0 -> estimate_hoeffding_lower_bound [Fin x] (Some 0) delta = Ok (Fin x)).
    { intros x Hx. pose proof (hoeffding_ok 1 (fun _ => x) 0 delta ltac:(lia) ltac:(intros; lra) ltac:(lra)) as E.
      unfold tabF, tab in E. simpl map in E. rewrite E. unfold hoeff, avg. simpl. do 2 f_equal. field. }
    unfold prob. simpl. rewrite !R1 by lra. unfold bound_fails.
    destruct (Rlt_dec (- q) (-1)), (Rlt_dec (- q) 0); unfold q in *; lra.
Qed.

(** Applied to the importance-weighted rewards of a log: a lower confidence bound on the policy value. *)
Lemma expect_dprod_map {A} n (D : nat -> dist A) (G : nat -> option A -> R) F :
  expect (dprod n (fun i => dmap (fun x => G i (Some x)) (D i))) F = expect (dprod n D) (fun o => F (tab n (fun i => G i (nth_error o i)))).
Proof.
  revert F. induction n as [|n IH]; intros F; [simpl; reflexivity|]. simpl dprod. rewrite !expect_dbind, IH. apply expect_ext.
  intros o p Ho Hp. destruct (In_dprod n D o p Ho Hp) as [Hl _]. rewrite !expect_dmap. apply expect_ext_all. intros a. f_equal.
  rewrite tab_S. rewrite nth_error_app2, Hl, Nat.sub_diag by lia. f_equal. apply tab_ext. intros i Hi. rewrite nth_error_app1 by lia. reflexivity.
Qed.

Lemma map_Fin_tab n f : map Fin (tab n f) = tabF n f.
Proof. unfold tabF. apply map_tab. Qed.

Section App.
  Context {X : Type} (e : benv X) (He : env_ok e) (W Rm : R).
  Hypothesis HW : forall x a s, (a < ev_K e)%nat -> ev_pe e x a s <= W * ev_pb e x s a.
  Hypothesis HR : forall x s a r p, (a < ev_K e)%nat -> In (r, p) (ev_rd e x s a) -> p <> 0 -> 0 <= r <= Rm.

  Lemma term_within i : (i < ev_n e)%nat -> within (dmap (fun y => ipw_term e i (Some y)) (round_dist e i)) 0 (W * Rm).
  Proof.
    intros Hi v p Hv Hp. apply In_dmap in Hv as ([[x a] r] & -> & Hin). destruct (In_round e He i x a r p Hin Hp) as [Ha Hb].
    assert (Hr : exists q, In (r, q) (ev_rd e x (ev_pos e i) a) /\ q <> 0).
    { unfold round_dist in Hin. apply In_dbind in Hin as (x' & p1 & p2 & Hx & H & ->). apply In_dbind in H as (a' & p3 & p4 & Ha' & H & ->).
      apply In_dmap in H as (r' & E & Hr). injection E as <- <- <-. exists p4. split; auto. intros Z. apply Hp. rewrite Z. ring. }
    destruct Hr as (q & Hq & Hq0). pose proof (HR x (ev_pos e i) a r q Ha Hq Hq0) as HRr. pose proof (HW x a (ev_pos e i) Ha) as HWx.
    pose proof (eo_pe0 e He x a (ev_pos e i) Ha) as Hpe. unfold ipw_term, wgt.
    assert (Hw : 0 <= ev_pe e x a (ev_pos e i) / ev_pb e x (ev_pos e i) a <= W).
    { split; [apply Rmult_le_pos; auto; left; apply Rinv_0_lt_compat; auto|]. apply (Rmult_le_reg_r (ev_pb e x (ev_pos e i) a)); auto.
      unfold Rdiv. rewrite Rmult_assoc, Rinv_l; lra. }
    split; [apply Rmult_le_pos; lra|]. apply Rmult_le_compat; lra.
  Qed.

  Lemma term_mean i : (i < ev_n e)%nat -> mean (dmap (fun y => ipw_term e i (Some y)) (round_dist e i)) = expect (round_dist e i) (fun y => ipw_term e i (Some y)).
  Proof. intros Hi. unfold mean. apply (expect_dmap (round_dist e i) (fun y => ipw_term e i (Some y)) (fun x => x)). Qed.

  Lemma weighted_tab qh o : map Fin (tab (ev_n e) (fun i => ipw_term e i (nth_error o i)))
    = tabF (ev_n e) (fun i => weight (log_of e (ev_pb e) qh o) i * lg_r (log_of e (ev_pb e) qh o) i).
  Proof. rewrite map_Fin_tab. unfold tabF. apply tab_ext. intros i Hi. f_equal. rewrite <- (ipw_term_log e qh). ring. Qed.
End App.

Theorem C119_policy_value : forall (X : Type) (e : benv X) qh W Rm delta, env_ok e -> 0 < delta <= 1 ->
  (forall x a s, (a < ev_K e)%nat -> ev_pe e x a s <= W * ev_pb e x s a) ->
  (forall x s a r p, (a < ev_K e)%nat -> In (r, p) (ev_rd e x s a) -> p <> 0 -> 0 <= r <= Rm) ->
  prob (log_dist e) (fun o => let l := log_of e (ev_pb e) qh o in
    bound_fails (estimate_hoeffding_lower_bound (tabF (ev_n e) (fun i => weight l i * lg_r l i)) (Some (W * Rm)) delta) (policy_value e)) <= delta.
Proof.
  intros X e qh W Rm delta He Hd HW HR. cbv zeta.
  pose proof (C119_hoeffding_valid (ev_n e) (fun i => dmap (fun y => ipw_term e i (Some y)) (round_dist e i)) (W * Rm) delta (eo_n e He) Hd) as H.
  unfold prob in H. rewrite (expect_dprod_map (ev_n e) (round_dist e) (ipw_term e)) in H.
  assert (HR' : forall x s a r p, (a < ev_K e)%nat -> In (r, p) (ev_rd e x s a) -> p <> 0 -> Rabs r <= Rm).
  { intros x s a r p Ha Hr Hp. pose proof (HR x s a r p Ha Hr Hp). rewrite Rabs_right; lra. }
  unfold prob, log_dist. eapply Rle_trans; [|apply H].
  - right. apply expect_ext_all. intros o. rewrite (weighted_tab e qh).
    rewrite (avg_ext (ev_n e) (fun i => mean (dmap (fun y => ipw_term e i (Some y)) (round_dist e i))) (fun i => expect (round_dist e i) (fun y => ipw_term e i (Some y)))) by (intros; apply term_mean; auto).
    rewrite (ipw_mean e He W HW). reflexivity.
  - intros i Hi. split; [apply is_dist_dmap; apply is_dist_round; auto|]. apply (term_within e He W Rm HW HR); auto.
Qed.

(** ** C120 *)
Theorem C120_bernstein_valid : forall n (d : dist R) b delta, (1 < n)%nat -> 0 < delta <= 1 -> is_dist d -> within d 0 b ->
  prob (dprod n (fun _ => d)) (fun o => bound_fails (estimate_bernstein_lower_bound (map Fin o) (Some b) delta) (mean d)) <= delta.
Proof.
  intros n d b delta Hn Hdel Hd Hw. assert (HN : 1 < INR n) by (apply (lt_INR 1) in Hn; simpl in Hn; lra).
  assert (HD : is_dist (dprod n (fun _ => d))) by (apply is_dist_dprod; auto).
  pose proof (mean_within d 0 b Hd Hw) as Hm. set (L := ln (2 / delta)).
  assert (HL : 0 < L).
  { unfold L. rewrite <- ln_1. apply ln_increasing; [lra|]. apply (Rmult_lt_reg_r delta); [lra|]. unfold Rdiv. rewrite Rmult_assoc, Rinv_l; lra. }
  assert (HeL : exp (- L) = delta / 2).
  { unfold L. replace (2 / delta) with (/ (delta / 2)) by (field; lra). rewrite ln_Rinv by lra. rewrite Ropp_involutive, exp_ln; lra. }
  assert (Hrun : forall o p, In (o, p) (dprod n (fun _ => d)) -> p <> 0 ->
     estimate_bernstein_lower_bound (map Fin o) (Some b) delta = Ok (Fin (bern n (fun i => nth i o 0) b delta))).
  { intros o p Ho Hp. rewrite (tab_of_support n _ o p Ho Hp). apply bernstein_ok; auto. intros i Hi. apply (support_within n (fun _ => d) 0 b o p); auto. }
  assert (Hmean_case : forall o, avg n (fun i => nth i o 0) <= mean d -> 0 <= b -> bern n (fun i => nth i o 0) b delta <= mean d).
  { intros o Ha Hb. unfold bern. fold L. assert (0 <= 7 * b * L / (3 * (INR n - 1))) by (apply Rmult_le_pos; [apply Rmult_le_pos; lra|left; apply Rinv_0_lt_compat; lra]).
    pose proof (sqrt_pos (2 * L * variance n (fun i => nth i o 0) / (INR n - 1))). lra. }
  destruct (Req_dec (var d) 0) as [Ev|Nv].
  - rewrite prob_impossible; [lra|]. intros o p Ho Hp. rewrite (Hrun o p Ho Hp). unfold bound_fails.
    destruct (Rlt_dec _ _) as [Hlt|]; [|reflexivity]. exfalso. revert Hlt. apply Rle_not_lt. apply Hmean_case; [|lra].
    right. rewrite <- (avg_const n (mean d)) by lia. apply avg_ext. intros i Hi.
    destruct (In_dprod n _ o p Ho Hp) as [_ H']. destruct (H' i 0 Hi) as (q & Hq & Hq0).
    assert (Z : forall x q, In (x, q) d -> q <> 0 -> x = mean d).
    { clear - Hd Ev. destruct Hd as [Hp _]. unfold var in Ev. set (m := mean d) in *. clearbody m. induction d as [|[y w] d IH]; simpl; [tauto|].
      simpl in Ev. assert (Hr : 0 <= expect d (fun x => (x - m) * (x - m))).
      { apply expect_nonneg; [intros; apply (Hp a); simpl; auto|]. intros. apply Rle_0_sqr. }
      assert (Hy : 0 <= (y - m) * (y - m) * w) by (apply Rmult_le_pos; [apply Rle_0_sqr|apply (Hp y); simpl; auto]).
      intros x q [E|E] Hq.
      - injection E as -> ->. assert (E0 : (x - m) * (x - m) * q = 0) by lra. apply Rmult_integral in E0 as [E0|]; [|lra]. apply Rmult_integral in E0. lra.
      - assert (Hp' : forall a p, In (a, p) d -> 0 <= p) by (intros a0 p0 H0; apply (Hp a0); simpl; auto).
        assert (Ev' : expect d (fun x => (x - m) * (x - m)) = 0) by lra. first [exact (IH Hp' Ev' x q E Hq)|exact (IH Ev' Hp' x q E Hq)]. }
    eapply Z; eauto.
  - pose proof (var_nonneg d Hd) as Hv0. assert (Hv : 0 < var d) by lra. set (v := var d) in *.
    assert (Hb : 0 < b).
    { destruct (Req_dec b 0) as [Eb|]; [|lra]. exfalso. apply Nv. unfold v, var. rewrite (expect_ext d _ (fun _ => 0)); [apply expect_const; auto|].
      intros x p Hx Hp. pose proof (Hw x p Hx Hp). assert (x - mean d = 0) by lra. rewrite H0. ring. }
    set (sig := sqrt v). assert (Hsig : 0 < sig) by (apply sqrt_lt_R0; auto). assert (Hss : sig * sig = v) by (apply sqrt_sqrt; lra).
    set (A := sqrt (2 * L / (INR n * v))). assert (HNv : 0 < INR n * v) by (apply Rmult_lt_0_compat; lra).
    assert (HA2 : A * A = 2 * L / (INR n * v)) by (apply sqrt_sqrt; apply Rmult_le_pos; [lra|left; apply Rinv_0_lt_compat; auto]).
    assert (HA : 0 <= A) by apply sqrt_pos.
    set (beta := b * sqrt (2 * L / (INR n - 1))).
    assert (Hq : 0 <= 2 * L / (INR n - 1)) by (apply Rmult_le_pos; [lra|left; apply Rinv_0_lt_compat; lra]).
    assert (Hbeta : 0 <= beta) by (unfold beta; apply Rmult_le_pos; [lra|apply sqrt_pos]).
    assert (Hbb : beta * beta = b * b * (2 * L / (INR n - 1))) by (unfold beta; rewrite <- (sqrt_sqrt (2 * L / (INR n - 1))) at 3 by auto; ring).
    pose proof (bernstein n d b A L ltac:(lia) Hd Hb Hw HA ltac:(fold v; rewrite HA2; field; lra)) as P1. fold v in P1.
    pose proof (variance_lower_tail n d b sig beta L Hn Hd Hb Hw Hsig Hss Hbeta ltac:(rewrite Hbb; field; lra)) as P2.
    rewrite HeL in P1, P2. apply (Rle_trans _ (delta / 2 + delta / 2)); [|lra].
    eapply Rle_trans; [|apply Rplus_le_compat; [exact P1|exact P2]].
    apply prob_union; auto. intros o p Ho Hp. rewrite (Hrun o p Ho Hp). unfold bound_fails.
    destruct (Rlt_dec (mean d) _) as [Hlt|]; [|discriminate]. intros _.
    destruct (Rlt_dec (mean d + _) _) as [|N1]; [left; reflexivity|]. right. destruct (Rle_dec _ _) as [|N2]; [reflexivity|]. exfalso.
    apply Rnot_lt_le in N1. apply Rnot_le_lt in N2. set (f := fun i => nth i o 0) in *. unfold bern in Hlt. fold L in Hlt.
    set (V := variance n f) in *. pose proof (variance_nonneg n f) as HV0. fold V in HV0.
    set (sv := sqrt (INR n * V / (INR n - 1))). assert (Hsv0 : 0 <= sv) by apply sqrt_pos.
    assert (Hsv : sv * sv = INR n * V / (INR n - 1)).
    { apply sqrt_sqrt. apply Rmult_le_pos; [apply Rmult_le_pos; lra|left; apply Rinv_0_lt_compat; lra]. }
    assert (Hs : sig <= sv + beta).
    { destruct (Rle_dec sig (sv + beta)) as [|N]; auto. exfalso. apply Rnot_le_lt in N.
      assert (H1 : sv * sv < (sig - beta) * (sig - beta)) by nra.
      assert (H2 : beta * beta <= sig * beta) by (apply Rmult_le_compat_r; lra).
      assert (H3 : INR n * V = (INR n - 1) * (sv * sv)) by (rewrite Hsv; field; lra).
      assert (H4 : (INR n - 1) * (sv * sv) < (INR n - 1) * (sig * sig - sig * beta)) by (apply Rmult_lt_compat_l; nra). lra. }
    (* sqrt(2 L V / (n-1)) = sqrt(2 L / n) * sv *)
    set (rt := sqrt (2 * L / INR n)). assert (Hrt0 : 0 <= rt) by apply sqrt_pos.
    assert (Hrt : rt * rt = 2 * L / INR n) by (apply sqrt_sqrt; apply Rmult_le_pos; [lra|left; apply Rinv_0_lt_compat; lra]).
    assert (E1 : sqrt (2 * L * V / (INR n - 1)) = rt * sv).
    { unfold rt, sv. rewrite <- sqrt_mult.
      - f_equal. field. lra.
      - apply Rmult_le_pos; [lra|left; apply Rinv_0_lt_compat; lra].
      - apply Rmult_le_pos; [apply Rmult_le_pos; lra|left; apply Rinv_0_lt_compat; lra]. }
    assert (E2 : v * A = rt * sig).
    { unfold A, rt. apply (Rmult_eq_reg_r sig); [|lra]. rewrite (Rmult_assoc _ sig sig), Hss.
      replace (2 * L / INR n) with (2 * L / (INR n * v) * v) by (field; lra).
      rewrite sqrt_mult; [fold sig; ring| |lra]. apply Rmult_le_pos; [lra|left; apply Rinv_0_lt_compat; auto]. }
    assert (E3 : rt * beta <= 2 * b * L / (INR n - 1)).
    { unfold beta. replace (rt * (b * sqrt (2 * L / (INR n - 1)))) with (b * (rt * sqrt (2 * L / (INR n - 1)))) by ring.
      replace (2 * b * L / (INR n - 1)) with (b * (sqrt (2 * L / (INR n - 1)) * sqrt (2 * L / (INR n - 1)))) by (rewrite sqrt_sqrt by auto; field; lra).
      apply Rmult_le_compat_l; [lra|]. apply Rmult_le_compat_r; [apply sqrt_pos|]. unfold rt. apply sqrt_le_1_alt.
      unfold Rdiv. apply Rmult_le_compat_l; [lra|]. apply Rinv_le_contravar; lra. }
    assert (E4 : b / 3 * L / INR n <= b * L / (3 * (INR n - 1))).
    { replace (b / 3 * L / INR n) with (b * L / 3 * / INR n) by (field; lra). replace (b * L / (3 * (INR n - 1))) with (b * L / 3 * / (INR n - 1)) by (field; lra).
      apply Rmult_le_compat_l; [apply Rmult_le_pos; [apply Rmult_le_pos; lra|lra]|]. apply Rinv_le_contravar; lra. }
    assert (E5 : 7 * b * L / (3 * (INR n - 1)) = 2 * b * L / (INR n - 1) + b * L / (3 * (INR n - 1))) by (field; lra).
    assert (E6 : rt * sig <= rt * sv + rt * beta) by (rewrite <- Rmult_plus_distr_l; apply Rmult_le_compat_l; lra).
    rewrite E1, E5 in Hlt. rewrite E2 in N1. lra.
Qed.

(** The empirical Bernstein bound on the policy value, for identically distributed rounds. *)
Theorem C120_policy_value : forall (X : Type) (e : benv X) qh W Rm delta, env_ok e -> (1 < ev_n e)%nat -> 0 < delta <= 1 ->
  (forall i, (i < ev_n e)%nat -> ev_ctx e i = ev_ctx e 0%nat /\ ev_pos e i = ev_pos e 0%nat) ->
  (forall x a s, (a < ev_K e)%nat -> ev_pe e x a s <= W * ev_pb e x s a) ->
  (forall x s a r p, (a < ev_K e)%nat -> In (r, p) (ev_rd e x s a) -> p <> 0 -> 0 <= r <= Rm) ->
  prob (log_dist e) (fun o => let l := log_of e (ev_pb e) qh o in
    bound_fails (estimate_bernstein_lower_bound (tabF (ev_n e) (fun i => weight l i * lg_r l i)) (Some (W * Rm)) delta) (policy_value e)) <= delta.
Proof.
  intros X e qh W Rm delta He Hn Hd Hiid HW HR. cbv zeta.
  set (T := fun i => dmap (fun y => ipw_term e i (Some y)) (round_dist e i)).
  assert (ET : forall i, (i < ev_n e)%nat -> T i = T 0%nat).
  { intros i Hi. destruct (Hiid i Hi) as [E1 E2]. unfold T, round_dist, ipw_term. rewrite E1, E2. reflexivity. }
  assert (EP : forall n F, (n <= ev_n e)%nat -> expect (dprod n T) F = expect (dprod n (fun _ => T 0%nat)) F).
  { intros n. induction n as [|n IH]; intros F Hl; [reflexivity|]. simpl dprod. rewrite !expect_dbind, IH by lia. apply expect_ext_all. intros o.
    rewrite !expect_dmap, (ET n) by lia. reflexivity. }
  assert (Hw0 : within (T 0%nat) 0 (W * Rm)) by (apply (term_within e He W Rm HW HR); lia).
  assert (Hd0 : is_dist (T 0%nat)) by (apply is_dist_dmap; apply is_dist_round; auto; lia).
  pose proof (C120_bernstein_valid (ev_n e) (T 0%nat) (W * Rm) delta Hn Hd Hd0 Hw0) as H.
  unfold prob in H. rewrite <- (EP (ev_n e)) in H by lia. unfold T in H. rewrite (expect_dprod_map (ev_n e) (round_dist e) (ipw_term e)) in H.
  assert (HR' : forall x s a r p, (a < ev_K e)%nat -> In (r, p) (ev_rd e x s a) -> p <> 0 -> Rabs r <= Rm).
  { intros x s a r p Ha Hr Hp. pose proof (HR x s a r p Ha Hr Hp). rewrite Rabs_right; lra. }
  unfold prob, log_dist. eapply Rle_trans; [|apply H]. right. apply expect_ext_all. intros o. rewrite (weighted_tab e qh).
  replace (policy_value e) with (mean (dmap (fun y => ipw_term e 0%nat (Some y)) (round_dist e 0%nat))); [reflexivity|].
  rewrite <- (ipw_mean e He W HW). rewrite <- (avg_const (ev_n e) (mean _)) by lia. apply avg_ext. intros i Hi.
  rewrite <- (term_mean e i Hi). change (mean (T 0%nat) = mean (T i)). rewrite (ET i Hi). reflexivity.
Qed.

(** ** C121 *)
Theorem C121_ipw_consistent : forall (X : Type) (e : benv X) qh arg W Rm eps, env_ok e -> 0 < eps ->
  (forall x a s, (a < ev_K e)%nat -> ev_pe e x a s <= W * ev_pb e x s a) ->
  (forall x s a r p, (a < ev_K e)%nat -> In (r, p) (ev_rd e x s a) -> p <> 0 -> Rabs r <= Rm) ->
  (forall o, position_arg (log_of e (ev_pb e) qh o) arg) ->
  prob (log_dist e) (fun o => let l := log_of e (ev_pb e) qh o in
    estimate_off (ipw_value PInf false (rewards l) (actions l) (policy l) (Some (pscores l)) arg None) (policy_value e) eps)
  <= W * Rm ^ 2 / (INR (ev_n e) * eps ^ 2).
Proof. intros. replace (Rm ^ 2) with (Rm * Rm) by ring. replace (eps ^ 2) with (eps * eps) by ring. apply ipw_consistent; auto. Qed.

Theorem C121_dr_consistent : forall (X : Type) (e : benv X) qh arg W Rm eps, env_ok e -> 0 < eps ->
  (forall x a s, (a < ev_K e)%nat -> ev_pe e x a s <= W * ev_pb e x s a) ->
  (forall x s a r p, (a < ev_K e)%nat -> In (r, p) (ev_rd e x s a) -> p <> 0 -> Rabs r <= Rm) ->
  (forall x a s, (a < ev_K e)%nat -> Rabs (qh x a s) <= Rm) ->
  (forall o, position_arg (log_of e (ev_pb e) qh o) arg) ->
  prob (log_dist e) (fun o => let l := log_of e (ev_pb e) qh o in
    estimate_off (dr_value PInf false (rewards l) (actions l) (policy l) (model l) (Some (pscores l)) arg None) (policy_value e) eps)
  <= (2 + 8 * W) * Rm ^ 2 / (INR (ev_n e) * eps ^ 2).
Proof. intros. replace (Rm ^ 2) with (Rm * Rm) by ring. replace (eps ^ 2) with (eps * eps) by ring. apply dr_consistent; auto. Qed.

Theorem C121_snipw_consistent : forall (X : Type) (e : benv X) qh arg W Rm eps, env_ok e -> 0 < eps ->
  (forall x a s, (a < ev_K e)%nat -> ev_pe e x a s <= W * ev_pb e x s a) ->
  (forall x s a r p, (a < ev_K e)%nat -> In (r, p) (ev_rd e x s a) -> p <> 0 -> Rabs r <= Rm) ->
  (forall o, position_arg (log_of e (ev_pb e) qh o) arg) ->
  prob (log_dist e) (fun o => let l := log_of e (ev_pb e) qh o in
    estimate_off (snipw_value false (rewards l) (actions l) (policy l) (Some (pscores l)) arg None) (policy_value e) eps)
  <= 16 * W * Rm ^ 2 / (INR (ev_n e) * eps ^ 2) + 4 * W / INR (ev_n e).
Proof. intros. replace (Rm ^ 2) with (Rm * Rm) by ring. replace (eps ^ 2) with (eps * eps) by ring. eapply snipw_consistent; eauto. Qed.

(** The three bounds vanish as the log grows, uniformly in the environment. *)
Lemma vanishing C alpha : 0 < alpha -> exists N, forall n, (N <= n)%nat -> (0 < n)%nat -> C / INR n <= alpha.
Proof.
  intros Ha. assert (HN : exists N, Rabs C / alpha < INR N).
  { destruct (archimed (Rabs C / alpha)) as [Hu _]. exists (Z.to_nat (up (Rabs C / alpha))). rewrite INR_IZR_INZ.
    eapply Rlt_le_trans; [exact Hu|]. apply IZR_le. lia. }
  destruct HN as [N HN]. exists N. intros n Hn H0.
  assert (Hi : 0 < INR n) by (apply lt_0_INR; auto). apply le_INR in Hn.
  apply (Rmult_le_reg_r (INR n)); [auto|]. unfold Rdiv. rewrite Rmult_assoc, Rinv_l by lra.
  assert (H1 : Rabs C < alpha * INR n).
  { apply (Rmult_lt_reg_r (/ alpha)); [apply Rinv_0_lt_compat; auto|]. replace (alpha * INR n * / alpha) with (INR n) by (field; lra).
    eapply Rlt_le_trans; [exact HN|exact Hn]. }
  pose proof (Rle_abs C). lra.
Qed.

Theorem C121_limit : forall W Rm eps alpha, 0 < eps -> 0 < alpha -> exists N,
  forall (X : Type) (e : benv X) qh arg, env_ok e -> (N <= ev_n e)%nat ->
  (forall x a s, (a < ev_K e)%nat -> ev_pe e x a s <= W * ev_pb e x s a) ->
  (forall x s a r p, (a < ev_K e)%nat -> In (r, p) (ev_rd e x s a) -> p <> 0 -> Rabs r <= Rm) ->
  (forall x a s, (a < ev_K e)%nat -> Rabs (qh x a s) <= Rm) ->
  (forall o, position_arg (log_of e (ev_pb e) qh o) arg) ->
  let off (est : blog -> res num) := prob (log_dist e) (fun o => estimate_off (est (log_of e (ev_pb e) qh o)) (policy_value e) eps) in
  off (fun l => ipw_value PInf false (rewards l) (actions l) (policy l) (Some (pscores l)) arg None) <= alpha /\
  off (fun l => snipw_value false (rewards l) (actions l) (policy l) (Some (pscores l)) arg None) <= alpha /\
  off (fun l => dr_value PInf false (rewards l) (actions l) (policy l) (model l) (Some (pscores l)) arg None) <= alpha.
Proof.
  intros W Rm eps alpha He Ha.
  destruct (vanishing (W * Rm ^ 2 / eps ^ 2) alpha Ha) as [N1 H1].
  destruct (vanishing (16 * W * Rm ^ 2 / eps ^ 2 + 4 * W) alpha Ha) as [N2 H2].
  destruct (vanishing ((2 + 8 * W) * Rm ^ 2 / eps ^ 2) alpha Ha) as [N3 H3].
  exists (N1 + N2 + N3)%nat. intros X e qh arg Hok HN HW HR HQ Hp. cbv zeta.
  pose proof (eo_n e Hok) as Hn. assert (Hi : 0 < INR (ev_n e)) by (apply lt_0_INR; auto).
  split; [|split].
  - eapply Rle_trans; [apply (C121_ipw_consistent X e qh arg W Rm eps); auto|]. eapply Rle_trans; [|apply (H1 (ev_n e)); lia]. right. field. split; lra.
  - eapply Rle_trans; [apply (C121_snipw_consistent X e qh arg W Rm eps); auto|]. eapply Rle_trans; [|apply (H2 (ev_n e)); lia]. right. field. split; lra.
  - eapply Rle_trans; [apply (C121_dr_consistent X e qh arg W Rm eps); auto|]. eapply Rle_trans; [|apply (H3 (ev_n e)); lia]. right. field. split; lra.
Qed.

(** ** Concrete cases *)

(** [ex_env] with [n] rounds. *)
Definition ex_env_n (n : nat) : benv bool := {|
  ev_n := n; ev_K := ev_K ex_env; ev_L := ev_L ex_env; ev_pos := ev_pos ex_env; ev_ctx := ev_ctx ex_env;
  ev_pb := ev_pb ex_env; ev_pe := ev_pe ex_env; ev_rd := ev_rd ex_env |}.

Lemma ex_env_n_ok n : (0 < n)%nat -> env_ok (ex_env_n n).
Proof.
  intros Hn. destruct ex_env_ok as [h1 h2 h3 h4 h5 h6 h7 h8]. constructor; simpl ev_n; auto. intros i _. apply (h3 0%nat). auto.
Qed.

Lemma ex_env_n_W n x a s : (a < ev_K (ex_env_n n))%nat -> ev_pe (ex_env_n n) x a s <= 2 * ev_pb (ex_env_n n) x s a.
Proof. simpl. intros. destruct x; idx a; simpl; try lia; lra. Qed.

Lemma ex_env_n_R n x s a r p : (a < ev_K (ex_env_n n))%nat -> In (r, p) (ev_rd (ex_env_n n) x s a) -> p <> 0 -> 0 <= r <= 1.
Proof. simpl. intros Ha. destruct x; simpl; intros [E|[E|[]]] _; injection E as <- <-; lra. Qed.

Example C119_case : let d := [(0, 1/4); (1/2, 1/4); (3, 1/2)] in is_dist d /\ within d 0 3 /\
  prob (dprod 5 (fun _ => d)) (fun o => bound_fails (estimate_hoeffding_lower_bound (map Fin o) (Some 3) (1/20)) (avg 5 (fun _ => mean d))) <= 1/20.
Proof.
  cbv zeta. assert (H1 : is_dist [(0, 1/4); (1/2, 1/4); (3, 1/2)]).
  { split; [|simpl; lra]. intros a p [E|[E|[E|[]]]]; injection E as <- <-; lra. }
  assert (H2 : within [(0, 1/4); (1/2, 1/4); (3, 1/2)] 0 3) by (intros a p [E|[E|[E|[]]]] _; injection E as <- <-; lra).
  split; [|split]; auto. apply (C119_hoeffding_valid 5 (fun _ => [(0, 1/4); (1/2, 1/4); (3, 1/2)])); [lia|lra|auto].
Qed.

Example C119_value_case : forall qh, prob (log_dist (ex_env_n 50)) (fun o => let l := log_of (ex_env_n 50) (ev_pb (ex_env_n 50)) qh o in
    bound_fails (estimate_hoeffding_lower_bound (tabF 50 (fun i => weight l i * lg_r l i)) (Some (2 * 1)) (1/20)) (policy_value (ex_env_n 50))) <= 1/20.
Proof.
  intros qh. apply (C119_policy_value bool (ex_env_n 50) qh 2 1 (1/20)); [apply ex_env_n_ok; lia|lra|intros; apply ex_env_n_W; auto|].
  intros; eapply (ex_env_n_R 50); eauto.
Qed.

Example C120_case : let d := [(0, 1/4); (1/2, 1/4); (3, 1/2)] in is_dist d /\ within d 0 3 /\ 0 < var d /\
  prob (dprod 5 (fun _ => d)) (fun o => bound_fails (estimate_bernstein_lower_bound (map Fin o) (Some 3) (1/20)) (mean d)) <= 1/20.
Proof.
  cbv zeta. destruct C119_case as (H1 & H2 & _). split; [|split; [|split]]; auto.
  - unfold var, mean. simpl. lra.
  - apply C120_bernstein_valid; auto; try lia; try lra.
Qed.

Example C120_value_case : forall qh, prob (log_dist (ex_env_n 50)) (fun o => let l := log_of (ex_env_n 50) (ev_pb (ex_env_n 50)) qh o in
    bound_fails (estimate_bernstein_lower_bound (tabF 50 (fun i => weight l i * lg_r l i)) (Some (2 * 1)) (1/20)) (policy_value (ex_env_n 50))) <= 1/20.
Proof.
  intros qh. apply (C120_policy_value bool (ex_env_n 50) qh 2 1 (1/20)); [apply ex_env_n_ok; lia|simpl; lia|lra|intros; split; reflexivity|intros; apply ex_env_n_W; auto|].
  intros; eapply (ex_env_n_R 50); eauto.
Qed.

(** With 10000 rounds, weights at most 2 and binary rewards, IPW misses by 0.1 or more with probability at most 1/50. *)
Example C121_case : forall qh, prob (log_dist (ex_env_n (100 * 100))) (fun o => let l := log_of (ex_env_n (100 * 100)) (ev_pb (ex_env_n (100 * 100))) qh o in
    estimate_off (ipw_value PInf false (rewards l) (actions l) (policy l) (Some (pscores l)) None None) (policy_value (ex_env_n (100 * 100))) (1/10)) <= 1/50.
Proof.
  intros qh. eapply Rle_trans; [apply (C121_ipw_consistent bool (ex_env_n (100 * 100)) qh None 2 1 (1/10))|].
  - apply ex_env_n_ok. lia.
  - lra.
  - intros; apply ex_env_n_W; auto.
  - intros x s a r p Ha Hr Hp. pose proof (ex_env_n_R (100 * 100) x s a r p Ha Hr Hp). rewrite Rabs_right; lra.
  - intros o. right. repeat split; reflexivity.
  - change (ev_n (ex_env_n (100 * 100))) with (100 * 100)%nat. rewrite mult_INR. rewrite (INR_IZR_INZ 100). simpl Z.of_nat. lra.
Qed.

Print Assumptions C119_hoeffding_valid.
Print Assumptions C119_negative_refuted.
Print Assumptions C119_policy_value.
Print Assumptions C120_bernstein_valid.
Print Assumptions C120_policy_value.
Print Assumptions C121_ipw_consistent.
Print Assumptions C121_dr_consistent.
Print Assumptions C121_snipw_consistent.
Print Assumptions C121_limit.
