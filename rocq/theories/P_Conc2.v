(** * P_Conc2: what the self-normalised DR, replay and modified-weight estimators converge to (C172). *)

From Coq Require Import Reals List ZArith Bool Lia Lra.
From Verif Require Import Num NpList M_Utils M_Estimators M_Tuning S_Base S_Prob S_Conc S_Estimators S_Env S_Tuning S_Bias
  L_Num L_Base L_Prob L_Estimators L_EstProps L_Unbiased L_Conc L_Conc3 L_Tuning S_Examples L_Examples P_Bias P_Replay P_MultiCons P_Conc.
Import ListNotations.
Open Scope R_scope.

(** A ratio of averages whose denominator concentrates on [mu]. *)
Lemma ratio_off {A} (D : nat -> dist A) n (num den : nat -> option A -> R) L mu Bd Bw eps : (0 < n)%nat -> 0 < eps -> 0 < mu ->
  (forall i, (i < n)%nat -> is_dist (D i)) ->
  avg n (fun i => expect (D i) (fun x => num i (Some x) - L * den i (Some x))) = 0 -> avg n (fun i => expect (D i) (fun x => den i (Some x))) = mu ->
  avg n (fun i => expect (D i) (fun x => (num i (Some x) - L * den i (Some x)) * (num i (Some x) - L * den i (Some x)))) <= Bd ->
  avg n (fun i => expect (D i) (fun x => den i (Some x) * den i (Some x))) <= Bw ->
  prob (dprod n D) (fun o => let d := avg n (fun i => den i (nth_error o i)) in
    if Rlt_dec 0 d then (if Rle_dec eps (Rabs (avg n (fun i => num i (nth_error o i)) / d - L)) then true else false) else true)
  <= 4 * Bd / (INR n * (mu * mu) * (eps * eps)) + 4 * Bw / (INR n * (mu * mu)).
Proof.
  intros Hn He Hmu HD M1 M2 S1 S2. assert (HN : 0 < INR n) by (apply lt_0_INR; auto).
  assert (He2 : 0 < eps * mu / 2) by nra. assert (Hm2 : 0 < mu / 2) by lra.
  pose proof (chebyshev_avg D n (fun i y => num i y - L * den i y) Bd (eps * mu / 2) Hn He2 HD S1) as C1.
  pose proof (chebyshev_avg D n den Bw (mu / 2) Hn Hm2 HD S2) as C2. cbv beta in C1. rewrite M1 in C1. rewrite M2 in C2.
  eapply Rle_trans; [|apply Rplus_le_compat; [eapply Rle_trans; [apply C1|]|eapply Rle_trans; [apply C2|]]].
  - apply prob_union; [apply is_dist_dprod; auto|]. intros o p Ho Hp E. cbv zeta in E.
    destruct (Rle_dec (eps * mu / 2) _) as [|N1]; [left; reflexivity|]. right. destruct (Rle_dec (mu / 2) _) as [|N2]; [reflexivity|]. exfalso.
    apply Rnot_le_lt in N1, N2. set (d := avg n (fun i => den i (nth_error o i))) in *.
    assert (Bd' : mu / 2 < d) by (unfold Rabs in N2; destruct (Rcase_abs _); lra).
    assert (En : avg n (fun i => num i (nth_error o i) - L * den i (nth_error o i)) = avg n (fun i => num i (nth_error o i)) - L * d).
    { rewrite avg_minus, avg_scal. reflexivity. }
    rewrite En, Rminus_0_r in N1. set (u := avg n (fun i => num i (nth_error o i))) in *.
    destruct (Rlt_dec 0 d) as [_|]; [|lra]. destruct (Rle_dec eps _) as [Hle|]; [|discriminate]. revert Hle. apply Rlt_not_le.
    replace (u / d - L) with ((u - L * d) / d) by (field; lra). unfold Rdiv. rewrite Rabs_mult, Rabs_inv, (Rabs_right d) by lra.
    apply (Rmult_lt_reg_r d); [lra|]. rewrite Rmult_assoc, Rinv_l, Rmult_1_r by lra. apply (Rlt_le_trans _ (eps * mu / 2)); auto. nra.
  - right. field. repeat split; lra.
  - right. field. split; lra.
Qed.

(** ** Self-normalised doubly robust *)
Section SNDR.
  Context {X : Type} (e : benv X) (He : env_ok e) (W Rm : R) (qh : X -> nat -> nat -> R).
  Hypothesis HW : forall x a s, (a < ev_K e)%nat -> ev_pe e x a s <= W * ev_pb e x s a.
  Hypothesis HR : forall x s a r p, (a < ev_K e)%nat -> In (r, p) (ev_rd e x s a) -> p <> 0 -> Rabs r <= Rm.
  Hypothesis HQ : forall x a s, (a < ev_K e)%nat -> Rabs (qh x a s) <= Rm.
  Let num i (y : option (X * nat * R)) := match y with Some (x, a, r) => wgt e x (ev_pos e i) a * (r - qh x a (ev_pos e i)) | None => 0 end.
  Let base i (y : option (X * nat * R)) := match y with Some (x, a, r) => qpi e qh x (ev_pos e i) | None => 0 end.
  Let EQ := avg (ev_n e) (fun i => expect (ev_ctx e i) (fun x => qpi e qh x (ev_pos e i))).
  Let L := policy_value e - EQ.

  Lemma base_round i : (i < ev_n e)%nat -> expect (round_dist e i) (fun y => base i (Some y)) = expect (ev_ctx e i) (fun x => qpi e qh x (ev_pos e i)).
  Proof.
    intros Hi. rewrite (expect_round e i _ (fun x _ _ => qpi e qh x (ev_pos e i))) by reflexivity. apply expect_ext_all. intros x.
    rewrite (sumn_ext _ _ (fun a => qpi e qh x (ev_pos e i) * ev_pb e x (ev_pos e i) a)) by (intros; rewrite expect_const by apply He; reflexivity).
    rewrite sumn_scal, (eo_pb1 e He). ring.
  Qed.

  Lemma num_mean : avg (ev_n e) (fun i => expect (round_dist e i) (fun y => num i (Some y))) = L.
  Proof.
    unfold L, EQ. rewrite <- (dr_mean e He W HW qh). rewrite <- avg_minus. apply avg_ext. intros i Hi. rewrite <- (base_round i Hi), <- expect_minus.
    apply expect_ext_all. intros [[x a] r]. unfold num, base, dr_term. ring.
  Qed.

  Lemma EQ_bound : Rabs EQ <= Rm.
  Proof.
    assert (Hn : (0 < ev_n e)%nat) by apply He. unfold EQ. eapply Rle_trans; [apply avg_abs; auto|].
    rewrite <- (avg_const (ev_n e) Rm) by auto. apply avg_le; auto. intros i Hi. eapply Rle_trans; [apply expect_abs; apply He; auto|].
    rewrite <- (expect_const (ev_ctx e i) Rm) by (apply He; auto). apply expect_le_supp; [apply He; auto|]. intros x p _ _. apply (qpi_bound e He Rm qh HQ).
  Qed.
  Lemma L_bound : Rabs L <= 2 * Rm.
  Proof.
    unfold L. eapply Rle_trans; [apply Rabs_triang|]. rewrite Rabs_Ropp. pose proof EQ_bound. pose proof (value_bound e He W Rm HW HR). lra.
  Qed.

  Lemma sndr_consistent arg eps : 0 < eps -> (forall o, position_arg (log_of e (ev_pb e) qh o) arg) ->
    prob (log_dist e) (fun o => let l := log_of e (ev_pb e) qh o in
      estimate_off (sndr_value false (rewards l) (actions l) (policy l) (model l) (Some (pscores l)) arg None) (policy_value e) eps)
    <= (4 + 256 * W) * Rm ^ 2 / (INR (ev_n e) * eps ^ 2) + 4 * W / INR (ev_n e).
  Proof.
    intros Heps Harg. pose proof (Rm_nonneg e He W Rm HW HR) as HRm. assert (HN : 0 < INR (ev_n e)) by (apply lt_0_INR, He).
    assert (H2 : 0 < eps / 2) by lra. assert (Hn : (0 < ev_n e)%nat) by apply He.
    pose proof (is_dist_round e He) as HD.
    pose proof (chebyshev (round_dist e) (ev_n e) base (Rm * Rm) (eps / 2) Hn H2 HD) as C1.
    pose proof (ratio_off (round_dist e) (ev_n e) num (w_term e) L 1 (W * (4 * Rm * (4 * Rm))) (W * (1 * 1)) (eps / 2) Hn H2 ltac:(lra) HD) as C2.
    assert (EB : avg (ev_n e) (fun i => expect (round_dist e i) (fun y => base i (Some y))) = EQ).
    { apply avg_ext. intros i Hi. apply base_round; auto. }
    rewrite EB in C1.
    replace ((4 + 256 * W) * Rm ^ 2 / (INR (ev_n e) * eps ^ 2) + 4 * W / INR (ev_n e)) with
      (Rm * Rm / (INR (ev_n e) * (eps / 2 * (eps / 2))) + (4 * (W * (4 * Rm * (4 * Rm))) / (INR (ev_n e) * (1 * 1) * (eps / 2 * (eps / 2))) + 4 * (W * (1 * 1)) / (INR (ev_n e) * (1 * 1))))
      by (field; lra).
    eapply Rle_trans; [|apply Rplus_le_compat; [apply C1|apply C2]].
    - apply prob_union; [apply log_is_dist; auto|]. intros o p Ho Hp Hoff. cbv zeta in Hoff.
      match goal with |- ?a = true \/ ?b = true => destruct b eqn:Eb; [right; reflexivity|left] end. cbv zeta in Eb.
      set (l := log_of e (ev_pb e) qh o) in *. set (d := avg (ev_n e) (fun i => w_term e i (nth_error o i))) in *.
      destruct (Rlt_dec 0 d) as [Hd|]; [|discriminate]. destruct (Rle_dec (eps / 2) (Rabs (_ / d - L))) as [|N2]; [discriminate|]. clear Eb.
      apply Rnot_le_lt in N2.
      assert (Ew : forall i, w_term e i (nth_error o i) = weight l i).
      { intros i. unfold w_term, weight, l, wgt. simpl. destruct (nth_error o i) as [[[x a] r]|]; [reflexivity|lra]. }
      assert (En : forall i, (i < ev_n e)%nat -> num i (nth_error o i) = weight l i * (lg_r l i - q_at l i)).
      { intros i Hi. destruct (In_dprod_opt _ _ _ _ Ho Hp i Hi) as ([[x a] r] & q & E & _ & _). unfold num, weight, q_at, l, wgt. cbn [lg_r lg_q lg_pi lg_a lg_p lg_pos log_of].
        rewrite E. reflexivity. }
      assert (Eb : forall i, (i < ev_n e)%nat -> base i (nth_error o i) = q_pi l i).
      { intros i Hi. destruct (In_dprod_opt _ _ _ _ Ho Hp i Hi) as ([[x a] r] & q & E & _ & _). unfold l. rewrite (q_pi_log e He _ _ _ _ _ _ _ Hi E), E. reflexivity. }
      assert (Dw : d = avg (ev_n e) (weight l)) by (apply avg_ext; intros; apply Ew).
      assert (Hs : 0 < sumn (ev_n e) (weight l)).
      { rewrite Dw in Hd. unfold avg in Hd. apply (Rmult_lt_reg_r (/ INR (ev_n e))); [apply Rinv_0_lt_compat; lra|]. unfold Rdiv in Hd. lra. }
      rewrite sndr_value_ok in Hoff; [|eapply accepted_log; eauto|apply Harg|reflexivity|change (lg_n l) with (ev_n e); lra].
      cbn [estimate_off] in Hoff. destruct (Rle_dec eps _) as [Hle|]; [|discriminate].
      assert (Ev : spec_sndr l = avg (ev_n e) (fun i => base i (nth_error o i)) + avg (ev_n e) (fun i => num i (nth_error o i)) / d).
      { unfold spec_sndr, spec_dm. change (lg_n l) with (ev_n e). rewrite Dw. rewrite (avg_ext _ _ _ Eb), (avg_ext _ _ _ En). f_equal. unfold avg. field. split; lra. }
      rewrite Ev in Hle. replace (policy_value e) with (EQ + L) in Hle by (unfold L; ring). apply two_parts in Hle.
      destruct Hle as [Hle|Hle]; [|lra]. match goal with |- (if ?c then _ else _) = _ => destruct c as [|N] end; [reflexivity|]. elim N. exact Hle.
    - intros i Hi. rewrite <- (expect_const (round_dist e i) (Rm * Rm)) by auto. apply expect_le_supp; auto. intros [[x a] r] p _ _. unfold base.
      apply sq_le; auto. apply (qpi_bound e He Rm qh HQ).
    - rewrite (avg_ext _ _ (fun i => expect (round_dist e i) (fun y => num i (Some y)) - L * expect (round_dist e i) (fun y => w_term e i (Some y))))
        by (intros; rewrite <- expect_scal, <- expect_minus; reflexivity).
      rewrite avg_minus, avg_scal, num_mean, (w_mean e He W HW). ring.
    - apply (w_mean e He W HW).
    - rewrite <- (avg_const (ev_n e) (W * (4 * Rm * (4 * Rm)))) by auto. apply avg_le; auto. intros i Hi.
      eapply Rle_trans; [|apply (weighted_moment e He W HW i (fun x a r => r - qh x a (ev_pos e i) - L) (4 * Rm * (4 * Rm)) Hi); [nra|]].
      + right. apply expect_ext_all. intros [[x a] r]. unfold num, w_term. ring.
      + intros x a r p Ha Hr Hp. apply sq_le; [lra|]. pose proof (HR x _ a r p Ha Hr Hp) as A1. pose proof (HQ x a (ev_pos e i) Ha) as A2. pose proof L_bound as A3.
        eapply Rle_trans; [apply Rabs_triang|]. rewrite Rabs_Ropp.
        assert (Rabs (r - qh x a (ev_pos e i)) <= 2 * Rm) by (eapply Rle_trans; [apply Rabs_triang|]; rewrite Rabs_Ropp; lra). lra.
    - rewrite <- (avg_const (ev_n e) (W * (1 * 1))) by auto. apply avg_le; auto. intros i Hi.
      eapply Rle_trans; [|apply (weighted_moment e He W HW i (fun _ _ _ => 1) (1 * 1) Hi); [lra|intros; lra]].
      right. apply expect_ext_all. intros [[x a] r]. simpl. ring.
  Qed.
End SNDR.

Theorem C172_sndr_consistent : forall (X : Type) (e : benv X) qh arg W Rm eps, env_ok e -> 0 < eps ->
  (forall x a s, (a < ev_K e)%nat -> ev_pe e x a s <= W * ev_pb e x s a) ->
  (forall x s a r p, (a < ev_K e)%nat -> In (r, p) (ev_rd e x s a) -> p <> 0 -> Rabs r <= Rm) ->
  (forall x a s, (a < ev_K e)%nat -> Rabs (qh x a s) <= Rm) ->
  (forall o, position_arg (log_of e (ev_pb e) qh o) arg) ->
  prob (log_dist e) (fun o => let l := log_of e (ev_pb e) qh o in
    estimate_off (sndr_value false (rewards l) (actions l) (policy l) (model l) (Some (pscores l)) arg None) (policy_value e) eps)
  <= (4 + 256 * W) * Rm ^ 2 / (INR (ev_n e) * eps ^ 2) + 4 * W / INR (ev_n e).
Proof. intros. apply sndr_consistent; auto. Qed.

(** ** Replay *)
Section Replay.
  Context {X : Type} (e : benv X) (He : env_ok e) (mu : dist X) (s : nat) (d : X -> nat) (Rm : R).
  Hypothesis Hid : identical_rounds e mu s.
  Hypothesis Hdet : deterministic e d s.
  Hypothesis HR : forall x a r p, (a < ev_K e)%nat -> In (r, p) (ev_rd e x s a) -> p <> 0 -> Rabs r <= Rm.
  Let agree := expect mu (fun x => ev_pb e x s (d x)).
  Let L := expect mu (fun x => ev_pb e x s (d x) * q_true e x s (d x)) / agree.
  Hypothesis Hpos : 0 < agree.
  Let hit (x : X) (a : nat) : R := if Req_EM_T (ev_pe e x a s) 1 then 1 else 0.
  Let num (i : nat) (y : option (X * nat * R)) := match y with Some (x, a, r) => hit x a * r | None => 0 end.
  Let den (i : nat) (y : option (X * nat * R)) := match y with Some (x, a, r) => hit x a | None => 0 end.

  Lemma mu_dist : is_dist mu.
  Proof. assert (Hn : (0 < ev_n e)%nat) by apply He. destruct (Hid 0%nat Hn) as [<- _]. apply He; auto. Qed.
  Lemma hit_is x a : (a < ev_K e)%nat -> hit x a = if Nat.eqb a (d x) then 1 else 0.
  Proof. intros Ha. unfold hit. rewrite (proj2 (Hdet x) a Ha). destruct (Nat.eqb a (d x)); destruct (Req_EM_T _ _); lra. Qed.
  Lemma hit_round i (f : X -> R -> R) : (i < ev_n e)%nat -> expect (round_dist e i) (fun y => match y with (x, a, r) => hit x a * f x r end)
    = expect mu (fun x => ev_pb e x s (d x) * expect (ev_rd e x s (d x)) (f x)).
  Proof.
    intros Hi. destruct (Hid i Hi) as [Hc Hs]. rewrite (expect_round e i _ (fun x a r => hit x a * f x r)) by reflexivity. rewrite Hc, Hs.
    apply expect_ext_all. intros x. rewrite (sumn_single _ _ (d x)); [|apply Hdet|].
    - rewrite expect_scal, (hit_is x (d x) (proj1 (Hdet x))), Nat.eqb_refl. ring.
    - intros a Ha Hne. rewrite expect_scal, (hit_is x a Ha), (proj2 (Nat.eqb_neq _ _) Hne). ring.
  Qed.
  Lemma reward_mean_bound x : Rabs (q_true e x s (d x)) <= Rm.
  Proof.
    unfold q_true. eapply Rle_trans; [apply expect_abs; apply He|]. rewrite <- (expect_const (ev_rd e x s (d x)) Rm) by apply He.
    apply expect_le_supp; [apply He|]. intros r p Hr Hp. eapply HR; eauto. apply Hdet.
  Qed.
  Lemma replay_L_bound : Rabs L <= Rm.
  Proof.
    unfold L, Rdiv. rewrite Rabs_mult, Rabs_inv, (Rabs_right agree) by lra. apply (Rmult_le_reg_r agree); auto. rewrite Rmult_assoc, Rinv_l, Rmult_1_r by lra.
    eapply Rle_trans; [apply expect_abs, mu_dist|]. unfold agree. rewrite <- expect_scal. apply expect_le_supp; [apply mu_dist|]. intros x p _ _.
    rewrite Rabs_mult. assert (Hp : 0 <= ev_pb e x s (d x)) by (apply He, Hdet). rewrite (Rabs_right (ev_pb e x s (d x))) by lra.
    rewrite Rmult_comm. apply Rmult_le_compat_r; auto. apply reward_mean_bound.
  Qed.

  Lemma replay_limit qh arg eps : 0 < eps -> (forall o, position_arg (log_of e (ev_pb e) qh o) arg) ->
    prob (log_dist e) (fun o => let l := log_of e (ev_pb e) qh o in estimate_off (rm_value (rewards l) (actions l) (policy l) arg) L eps)
    <= 16 * Rm ^ 2 / (INR (ev_n e) * agree * eps ^ 2) + 4 / (INR (ev_n e) * agree).
  Proof.
    intros Heps Harg. assert (Hn : (0 < ev_n e)%nat) by apply He. assert (HN : 0 < INR (ev_n e)) by (apply lt_0_INR; auto).
    pose proof (is_dist_round e He) as HD. pose proof replay_L_bound as HL.
    assert (HRm : 0 <= Rm) by (eapply Rle_trans; [apply Rabs_pos|exact HL]).
    assert (M1 : forall i, (i < ev_n e)%nat -> expect (round_dist e i) (fun y => num i (Some y)) = expect mu (fun x => ev_pb e x s (d x) * q_true e x s (d x))).
    { intros i Hi. exact (hit_round i (fun _ r => r) Hi). }
    assert (M2 : forall i, (i < ev_n e)%nat -> expect (round_dist e i) (fun y => den i (Some y)) = agree).
    { intros i Hi. transitivity (expect (round_dist e i) (fun y => match y with (x, a, r) => hit x a * (fun _ _ => 1) x r end)).
      - apply expect_ext_all. intros [[x a] r]. unfold den. ring.
      - rewrite (hit_round i (fun _ _ => 1) Hi). unfold agree. apply expect_ext_all. intros x. rewrite expect_const by apply He. ring. }
    pose proof (ratio_off (round_dist e) (ev_n e) num den L agree (agree * (2 * Rm * (2 * Rm))) agree eps Hn Heps Hpos HD) as C.
    eapply Rle_trans; [|eapply Rle_trans; [apply C|]].
    - eapply prob_within; [apply log_is_dist; auto| |apply Rle_refl]. intros o p Ho Hp Hoff. cbv beta zeta in *. set (l := log_of e (ev_pb e) qh o) in *.
      rewrite (rm_value_ok l arg) in Hoff by (first [apply Harg|eapply accepted_log; eauto]). cbn [estimate_off] in Hoff.
      assert (Em : forall i, (i < ev_n e)%nat -> matched l i = den i (nth_error o i) /\ matched l i * lg_r l i = num i (nth_error o i)).
      { intros i Hi. destruct (In_dprod_opt _ _ _ _ Ho Hp i Hi) as ([[x a] r] & q & E & _ & _). unfold matched, den, num, hit, l.
        cbn [lg_pi lg_a lg_pos lg_r log_of]. rewrite E. destruct (Hid i Hi) as [_ ->]. destruct (Req_EM_T _ _); split; ring. }
      destruct (Rlt_dec 0 (avg (ev_n e) (fun i => den i (nth_error o i)))) as [Hd|]; [|reflexivity].
      assert (Sd : sumn (ev_n e) (fun i => den i (nth_error o i)) = sumn (ev_n e) (matched l)) by (apply sumn_ext; intros; symmetry; apply Em; auto).
      assert (Sn : sumn (ev_n e) (fun i => num i (nth_error o i)) = sumn (ev_n e) (fun i => matched l i * lg_r l i)) by (apply sumn_ext; intros; symmetry; apply Em; auto).
      unfold avg in Hd |- *. rewrite Sd, Sn in *. unfold spec_rm in Hoff. change (lg_n l) with (ev_n e) in Hoff.
      destruct (Req_EM_T (sumn (ev_n e) (matched l)) 0) as [E|E]; [rewrite E in Hd; unfold Rdiv in Hd; rewrite Rmult_0_l in Hd; lra|].
      replace (sumn (ev_n e) (fun i => matched l i * lg_r l i) / INR (ev_n e) / (sumn (ev_n e) (matched l) / INR (ev_n e)))
        with (sumn (ev_n e) (fun i => matched l i * lg_r l i) / sumn (ev_n e) (matched l)) by (field; split; lra).
      exact Hoff.
    - rewrite (avg_ext _ _ (fun _ => 0)); [apply avg_const; auto|]. intros i Hi.
      rewrite expect_minus, expect_scal, (M1 i Hi), (M2 i Hi). unfold L. field. lra.
    - rewrite (avg_ext _ _ (fun _ => agree)); [apply avg_const; auto|exact M2].
    - rewrite <- (avg_const (ev_n e) (agree * (2 * Rm * (2 * Rm)))) by auto. apply avg_le; auto. intros i Hi.
      rewrite (expect_ext_all _ _ (fun y => match y with (x, a, r) => hit x a * (fun _ r => (r - L) * (r - L)) x r end)).
      2:{ intros [[x a] r]. unfold num, den. cbv beta. unfold hit. destruct (Req_EM_T _ _); ring. }
      rewrite (hit_round i (fun _ r => (r - L) * (r - L)) Hi). unfold agree. rewrite Rmult_comm, <- expect_scal. apply expect_le_supp; [apply mu_dist|].
      intros x p _ _. rewrite Rmult_comm. apply Rmult_le_compat_r; [apply He, Hdet|].
      rewrite <- (expect_const (ev_rd e x s (d x)) (2 * Rm * (2 * Rm))) by apply He. apply expect_le_supp; [apply He|]. intros r q Hr Hq.
      apply sq_le; [lra|]. pose proof (HR x (d x) r q (proj1 (Hdet x)) Hr Hq). eapply Rle_trans; [apply Rabs_triang|]. rewrite Rabs_Ropp. lra.
    - rewrite <- (avg_const (ev_n e) agree) by auto. apply avg_le; auto. intros i Hi. rewrite <- (M2 i Hi). right.
      apply expect_ext_all. intros [[x a] r]. unfold den, hit. destruct (Req_EM_T _ _); ring.
    - right. field. repeat split; lra.
  Qed.
End Replay.

(** The replay estimate converges to the value of the policy in the contexts where the logging policy agrees with it. *)
Theorem C172_replay_limit : forall X (e : benv X) qh arg mu s d Rm eps, env_ok e -> identical_rounds e mu s -> deterministic e d s ->
  (forall x a r p, (a < ev_K e)%nat -> In (r, p) (ev_rd e x s a) -> p <> 0 -> Rabs r <= Rm) ->
  (forall o, position_arg (log_of e (ev_pb e) qh o) arg) -> 0 < eps ->
  let agree := expect mu (fun x => ev_pb e x s (d x)) in 0 < agree ->
  prob (log_dist e) (fun o => let l := log_of e (ev_pb e) qh o in
    estimate_off (rm_value (rewards l) (actions l) (policy l) arg) (expect mu (fun x => ev_pb e x s (d x) * q_true e x s (d x)) / agree) eps)
  <= 16 * Rm ^ 2 / (INR (ev_n e) * agree * eps ^ 2) + 4 / (INR (ev_n e) * agree).
Proof. intros. apply replay_limit; auto. Qed.

(** With a logging policy that takes the policy's action equally often in every context, that is the policy value. *)
Theorem C172_replay_consistent : forall X (e : benv X) qh arg mu s d c Rm eps, env_ok e -> identical_rounds e mu s -> deterministic e d s ->
  (forall x a r p, (a < ev_K e)%nat -> In (r, p) (ev_rd e x s a) -> p <> 0 -> Rabs r <= Rm) ->
  (forall o, position_arg (log_of e (ev_pb e) qh o) arg) -> 0 < eps -> 0 < c -> (forall x, ev_pb e x s (d x) = c) ->
  prob (log_dist e) (fun o => let l := log_of e (ev_pb e) qh o in
    estimate_off (rm_value (rewards l) (actions l) (policy l) arg) (policy_value e) eps)
  <= 16 * Rm ^ 2 / (INR (ev_n e) * c * eps ^ 2) + 4 / (INR (ev_n e) * c).
Proof.
  intros X e qh arg mu s d c Rm eps He Hid Hdet HR Harg Heps Hc Hpb. assert (Hn : (0 < ev_n e)%nat) by apply He.
  assert (Hmu : is_dist mu) by (destruct (Hid 0%nat Hn) as [<- _]; apply He; auto).
  assert (A : expect mu (fun x => ev_pb e x s (d x)) = c).
  { rewrite (expect_ext_all _ _ (fun _ => c)) by auto. apply expect_const; auto. }
  pose proof (C172_replay_limit X e qh arg mu s d Rm eps He Hid Hdet HR Harg Heps) as T. cbv zeta in T. rewrite A in T. specialize (T Hc).
  replace (policy_value e) with (expect mu (fun x => ev_pb e x s (d x) * q_true e x s (d x)) / c); auto.
  rewrite (expect_ext_all _ _ (fun x => c * q_true e x s (d x))) by (intros; rewrite Hpb; auto). rewrite expect_scal.
  unfold policy_value. rewrite (avg_ext _ _ (fun _ => expect mu (fun x => q_true e x s (d x)))).
  - rewrite avg_const by auto. field. lra.
  - intros i Hi. destruct (Hid i Hi) as [-> ->]. apply expect_ext_all. intros x.
    rewrite (sumn_single _ _ (d x)); [|apply Hdet|].
    + rewrite (proj2 (Hdet x) _ (proj1 (Hdet x))), Nat.eqb_refl. ring.
    + intros a Ha Hne. rewrite (proj2 (Hdet x) _ Ha), (proj2 (Nat.eqb_neq _ _) Hne). ring.
Qed.

(** Otherwise the replay estimate need not be consistent: here it is near the policy value 1/2 with vanishing probability. *)
Theorem C172_replay_inconsistent : forall n qh, (0 < n)%nat ->
  policy_value (skew_env n (3 / 4)) = 1 / 2 /\
  prob (log_dist (skew_env n (3 / 4))) (fun o => let l := log_of (skew_env n (3 / 4)) (ev_pb (skew_env n (3 / 4))) qh o in
    negb (estimate_off (rm_value (rewards l) (actions l) (policy l) None) (1 / 2) (1 / 8))) <= 2056 / INR n.
Proof.
  intros n qh Hn. destruct (skew_ok n (3 / 4) Hn ltac:(lra)) as (He & Hid & Hdet & Harg). assert (HN : 0 < INR n) by (apply lt_0_INR; auto).
  split; [apply (C138_biased n qh Hn)|].
  assert (HR : forall x a r p, (a < ev_K (skew_env n (3 / 4)))%nat -> In (r, p) (ev_rd (skew_env n (3 / 4)) x 0 a) -> p <> 0 -> Rabs r <= 1).
  { intros x a r p _ Hr _. simpl in Hr. destruct Hr as [[= <- <-]|[]]. destruct x; rewrite Rabs_right; lra. }
  pose proof (C172_replay_limit bool (skew_env n (3 / 4)) qh None _ _ _ 1 (1 / 8) He Hid Hdet HR (Harg qh) ltac:(lra)) as T. cbv zeta in T.
  replace (expect _ (fun x => ev_pb _ x 0 0)) with (1 / 2) in T by (simpl; field).
  replace (expect _ (fun x => ev_pb _ x 0 0 * _)) with (3 / 8) in T by (unfold q_true; simpl; field).
  specialize (T ltac:(lra)). eapply prob_within; [apply log_is_dist; auto| |eapply Rle_trans; [exact T|]].
  - intros o p _ _ E. cbv beta zeta in *. destruct (rm_value _ _ _ _) as [[v| | |]|]; try discriminate. cbn [estimate_off] in *.
    destruct (Rle_dec (1 / 8) (Rabs (v - 1 / 2))) as [|N]; [discriminate|]. apply Rnot_le_lt, Rabs_def2 in N.
    destruct (Rle_dec (1 / 8) _) as [|N2]; [reflexivity|]. exfalso. apply Rnot_le_lt, Rabs_def2 in N2. lra.
  - cbn [ev_n skew_env]. right. field. lra.
Qed.

(** ** Clipped, switched, shrunk and sub-Gaussian weights at a fixed hyper-parameter: the estimate converges to its expectation. *)
Theorem C172_modified_limit : forall X (e : benv X) qh t lam arg M Rm eps, env_ok e -> common_support e -> regular (kind_modifier t) lam -> 0 < eps ->
  (forall o, position_arg (log_of e (ev_pb e) qh o) arg) ->
  (forall x s a r p, (a < ev_K e)%nat -> In (r, p) (ev_rd e x s a) -> p <> 0 -> Rabs r <= Rm) ->
  (forall x a s, (a < ev_K e)%nat -> Rabs (qh x a s) <= Rm) ->
  (forall x s a, (a < ev_K e)%nat -> 0 < ev_pb e x s a -> Rabs (modified (kind_modifier t) lam (true_weight e x s a)) <= M) ->
  prob (log_dist e) (fun o => let l := log_of e (ev_pb e) qh o in
    estimate_off (base_value t (lam_num lam) false
      (mkTinput (rewards l) (actions l) (policy l) (if uses_model t then Some (model l) else None) (Some (pscores l)) arg None))
      (policy_value e - lost_value e (uses_model t) qh (kind_modifier t) lam) eps)
  <= ((1 + 2 * M) * Rm) ^ 2 / (INR (ev_n e) * eps ^ 2).
Proof.
  intros X e qh t lam arg M Rm eps He Hcs Hreg Heps Harg HR HQ HM.
  destruct (C132_exact_bias X e qh t lam arg He Hcs Hreg Harg) as (g & Hg & Eg). set (L := policy_value e - _) in *.
  set (dr := uses_model t) in *. set (md := kind_modifier t) in *.
  set (T := fun i (y : option (X * nat * R)) => match y with Some y => round_value e dr qh md lam i y | None => 0 end).
  assert (Hn : (0 < ev_n e)%nat) by apply He. pose proof (is_dist_round e He) as HD.
  assert (Val : forall o p, In (o, p) (log_dist e) -> p <> 0 -> g o = avg (ev_n e) (fun i => T i (nth_error o i))).
  { intros o p Ho Hp. pose proof (Hg o p Ho Hp) as V. cbv zeta in V. set (l := log_of e (ev_pb e) qh o) in *.
    assert (V2 : base_value t (lam_num lam) false (mkTinput (rewards l) (actions l) (policy l) (if uses_model t then Some (model l) else None) (Some (pscores l)) arg None)
       = Ok (Fin (spec_value dr md lam l))).
    { apply (base_value_ok t lam false l (Some (pscores l)) arg None); auto; [eapply accepted_log; eauto|eapply policy_log; eauto|apply Harg|reflexivity]. }
    fold dr in V2. rewrite V2 in V. injection V as <-. unfold spec_value, contribution. apply avg_ext. intros i Hi.
    destruct (In_dprod_opt _ _ _ _ Ho Hp i Hi) as ([[x a] r] & q & E & _ & _). unfold l.
    rewrite (q_pi_log e He _ _ _ _ _ _ _ Hi E). unfold T, round_value, weight, residual, q_at, true_weight.
    cbn [lg_r lg_q lg_pi lg_a lg_p lg_pos log_of]. rewrite E. destruct dr; [reflexivity|]. rewrite Rminus_0_r. reflexivity. }
  assert (Mean : avg (ev_n e) (fun i => expect (round_dist e i) (fun y => T i (Some y))) = L).
  { rewrite <- Eg, (expect_ext _ _ _ Val). unfold log_dist. rewrite (expect_dprod_avg_opt _ _ T) by auto. reflexivity. }
  replace (eps ^ 2) with (eps * eps) by ring. replace (((1 + 2 * M) * Rm) ^ 2) with ((1 + 2 * M) * Rm * ((1 + 2 * M) * Rm)) by ring.
  pose proof (chebyshev (round_dist e) (ev_n e) T ((1 + 2 * M) * Rm * ((1 + 2 * M) * Rm)) eps Hn Heps HD) as C. rewrite Mean in C.
  eapply Rle_trans; [|apply C].
  - eapply prob_within; [apply log_is_dist; auto| |apply Rle_refl]. intros o p Ho Hp Hoff. cbv beta zeta in *. rewrite (Hg o p Ho Hp) in Hoff. cbn [estimate_off] in Hoff.
    rewrite (Val o p Ho Hp) in Hoff. exact Hoff.
  - intros i Hi. set (s := ev_pos e i).
    rewrite (expect_round e i _ (fun x a r => round_value e dr qh md lam i (x, a, r) * round_value e dr qh md lam i (x, a, r))) by reflexivity.
    rewrite <- (expect_const (ev_ctx e i) ((1 + 2 * M) * Rm * ((1 + 2 * M) * Rm))) by (apply He; auto).
    apply expect_le_supp; [apply He; auto|]. intros x p _ _. fold s.
    replace ((1 + 2 * M) * Rm * ((1 + 2 * M) * Rm)) with (sumn (ev_K e) (fun a => (1 + 2 * M) * Rm * ((1 + 2 * M) * Rm) * ev_pb e x s a)) by (rewrite sumn_scal, (eo_pb1 e He); ring).
    apply sumn_le. intros a Ha. destruct (Rle_lt_or_eq_dec 0 _ (eo_pb0 e He x s a Ha)) as [Hb|Hz]; [|rewrite <- Hz; lra].
    apply Rmult_le_compat_r; [lra|]. rewrite <- (expect_const (ev_rd e x s a) ((1 + 2 * M) * Rm * ((1 + 2 * M) * Rm))) by apply He.
    apply expect_le_supp; [apply He|]. intros r q Hr Hq. pose proof (HR x s a r q Ha Hr Hq) as B1. pose proof (HQ x a s Ha) as B2. pose proof (HM x s a Ha Hb) as B3.
    assert (Rm0 : 0 <= Rm) by (eapply Rle_trans; [apply Rabs_pos|exact B1]). assert (M0 : 0 <= M) by (eapply Rle_trans; [apply Rabs_pos|exact B3]).
    apply sq_le; [apply Rmult_le_pos; lra|]. unfold round_value. fold s. eapply Rle_trans; [apply Rabs_triang|]. rewrite Rabs_mult.
    assert (A1 : Rabs (if dr then sumn (ev_K e) (fun b => qh x b s * ev_pe e x b s) else 0) <= Rm).
    { destruct dr; [apply (qpi_bound e He Rm qh HQ)|rewrite Rabs_R0; auto]. }
    assert (A2 : Rabs (r - (if dr then qh x a s else 0)) <= 2 * Rm).
    { eapply Rle_trans; [apply Rabs_triang|]. rewrite Rabs_Ropp. destruct dr; [lra|rewrite Rabs_R0; lra]. }
    pose proof (Rmult_le_compat _ _ _ _ (Rabs_pos _) (Rabs_pos _) B3 A2). lra.
Qed.

(** Clipping and switching at a threshold no weight exceeds, and shrinkage with a large enough parameter, are close to the policy value. *)
Theorem C172_modified_consistent : forall X (e : benv X) qh t lam arg W Rm eps, env_ok e -> common_support e -> weights_at_most e W -> 0 < eps ->
  (forall o, position_arg (log_of e (ev_pb e) qh o) arg) ->
  (forall x s a r p, (a < ev_K e)%nat -> In (r, p) (ev_rd e x s a) -> p <> 0 -> Rabs r <= Rm) ->
  (forall x a s, (a < ev_K e)%nat -> Rabs (qh x a s) <= Rm) ->
  match t with
  | T_IPW | T_DR | T_Switch => W <= lam
  | T_DRos => 0 < lam /\ 4 * Rm * W ^ 2 <= lam * eps
  | T_SGIPW | T_SGDR => 0 <= lam < 1 /\ 4 * Rm * (lam / (1 - lam) * Rmax 1 W) <= eps
  end ->
  prob (log_dist e) (fun o => let l := log_of e (ev_pb e) qh o in
    estimate_off (base_value t (Fin lam) false
      (mkTinput (rewards l) (actions l) (policy l) (if uses_model t then Some (model l) else None) (Some (pscores l)) arg None))
      (policy_value e) eps)
  <= 4 * ((1 + 2 * Rmax 1 W) * Rm) ^ 2 / (INR (ev_n e) * eps ^ 2).
Proof.
  intros X e qh t lam arg W Rm eps He Hcs HW Heps Harg HR HQ Hlam. assert (HN : 0 < INR (ev_n e)) by (apply lt_0_INR, He).
  assert (Hw0 : forall x s a, (a < ev_K e)%nat -> 0 < ev_pb e x s a -> 0 <= true_weight e x s a <= W).
  { intros x s a Ha Hb. split; [apply true_weight_nonneg; auto|apply HW; auto]. }
  assert (HWb : forall x a s, (a < ev_K e)%nat -> ev_pe e x a s <= W * ev_pb e x s a).
  { intros x a s Ha. destruct (Rle_lt_or_eq_dec 0 _ (eo_pb0 e He x s a Ha)) as [Hb|Hz].
    - pose proof (HW x s a Ha Hb) as H. unfold true_weight in H. apply (Rmult_le_compat_r (ev_pb e x s a)) in H; [|lra].
      unfold Rdiv in H. rewrite Rmult_assoc, Rinv_l, Rmult_1_r in H by lra. exact H.
    - rewrite <- Hz, Rmult_0_r. destruct (Rle_lt_or_eq_dec 0 _ (eo_pe0 e He x a s Ha)) as [Hp|E]; [|lra]. pose proof (Hcs x a s Ha Hp). lra. }
  pose proof (Rm_nonneg e He W Rm HWb HR) as HRm. pose proof (Rmax_l 1 W) as HX1. pose proof (Rmax_r 1 W) as HXW. set (M := Rmax 1 W) in *.
  assert (Hun : forall dr x s a, (a < ev_K e)%nat -> Rabs (unexplained e dr qh x s a) <= 2 * Rm).
  { intros dr x s a Ha. unfold unexplained. eapply Rle_trans; [apply Rabs_triang|]. rewrite Rabs_Ropp.
    assert (Rabs (q_true e x s a) <= Rm).
    { unfold q_true. eapply Rle_trans; [apply expect_abs; apply He|]. rewrite <- (expect_const (ev_rd e x s a) Rm) by apply He.
      apply expect_le_supp; [apply He|]. intros r p Hr Hp. eapply HR; eauto. }
    destruct dr; [pose proof (HQ x a s Ha); lra|rewrite Rabs_R0; lra]. }
  assert (Hreg : regular (kind_modifier t) (Some lam)) by (destruct t; cbn; auto; try lra).
  assert (HM : forall x s a, (a < ev_K e)%nat -> 0 < ev_pb e x s a -> Rabs (modified (kind_modifier t) (Some lam) (true_weight e x s a)) <= M).
  { intros x s a Ha Hb. pose proof (Hw0 x s a Ha Hb) as [A B]. set (w := true_weight e x s a) in *.
    assert (Sg : 0 <= lam < 1 -> Rabs (w / (1 - lam + lam * w)) <= M).
    { intros Hl. assert (D : 0 < 1 - lam + lam * w) by nra.
      assert (E : 0 <= w / (1 - lam + lam * w)) by (apply Rmult_le_pos; [lra|left; apply Rinv_0_lt_compat; auto]).
      rewrite Rabs_right by lra. apply (Rmult_le_reg_r (1 - lam + lam * w)); auto. unfold Rdiv. rewrite Rmult_assoc, Rinv_l, Rmult_1_r by lra.
      assert (w * (1 - lam) <= M * (1 - lam)) by (apply Rmult_le_compat_r; lra). assert (0 <= lam * w) by nra.
      assert (1 * (lam * w) <= M * (lam * w)) by (apply Rmult_le_compat_r; lra). lra. }
    destruct t; cbn [kind_modifier modified clip].
    all: try (rewrite Rmin_left by lra; rewrite Rabs_right; lra).
    all: try (destruct (Rle_dec w lam); [rewrite Rabs_right; lra|rewrite Rabs_R0; lra]).
    all: try (apply Sg; apply Hlam).
    destruct Hlam as [Hl _]. assert (D : 0 < w * w + lam) by nra.
    assert (E : 0 <= lam * w / (w * w + lam) <= w).
    { split; [apply Rmult_le_pos; [nra|left; apply Rinv_0_lt_compat; auto]|].
      apply (Rmult_le_reg_r (w * w + lam)); auto. unfold Rdiv. rewrite Rmult_assoc, Rinv_l, Rmult_1_r by lra. assert (0 <= w * w * w) by (apply Rmult_le_pos; nra). nra. }
    rewrite Rabs_right by lra. lra. }
  assert (Hlost : Rabs (lost_value e (uses_model t) qh (kind_modifier t) (Some lam)) <= eps / 2).
  { assert (Big : forall md, md = Clipping \/ md = Switching -> W <= lam -> Rabs (lost_value e (uses_model t) qh md (Some lam)) <= eps / 2).
    { intros md Hmd Hl. rewrite (C132_large_threshold X e _ qh md (Some lam) W He Hmd HW) by (intros y [= <-]; auto). rewrite Rabs_R0. lra. }
    assert (Sg : 0 <= lam < 1 /\ 4 * Rm * (lam / (1 - lam) * M) <= eps -> Rabs (lost_value e (uses_model t) qh SubGaussian (Some lam)) <= eps / 2).
    { intros [Hl Hb]. eapply Rle_trans; [apply (C132_subgaussian_rate X e _ qh lam W (2 * Rm)); auto; lra|]. fold M. lra. }
    destruct t; cbn [kind_modifier]; auto.
    destruct Hlam as [Hl Hb]. eapply Rle_trans; [apply (C132_shrinkage_rate X e _ qh lam W (2 * Rm)); auto; lra|].
    apply (Rmult_le_reg_r lam); auto. replace (2 * Rm * (W * W / lam) * lam) with (2 * Rm * (W * W)) by (field; lra). lra. }
  pose proof (C172_modified_limit X e qh t (Some lam) arg M Rm (eps / 2) He Hcs Hreg ltac:(lra) Harg HR HQ HM) as T.
  eapply prob_within; [apply log_is_dist; auto| |eapply Rle_trans; [exact T|right; field; lra]].
  intros o p Ho Hp Hoff. cbv beta zeta in *. cbn [lam_num]. destruct (base_value _ _ _ _) as [[v| | |]|]; try reflexivity. cbn [estimate_off] in *.
  destruct (Rle_dec eps _) as [Hle|]; [|discriminate]. destruct (Rle_dec (eps / 2) _) as [|N]; [reflexivity|]. exfalso. apply Rnot_le_lt in N.
  set (lv := lost_value _ _ _ _ _) in *. replace (v - policy_value e) with ((v - (policy_value e - lv)) + (- lv)) in Hle by ring.
  pose proof (Rabs_triang (v - (policy_value e - lv)) (- lv)) as Tr. rewrite Rabs_Ropp in Tr. lra.
Qed.

(** ** Concrete cases: weights at most 2, rewards in [0, 1], the model predicting 1/2 everywhere. *)
Example C172_sndr_case : forall n, (0 < n)%nat ->
  prob (log_dist (ex_env_n n)) (fun o => let l := log_of (ex_env_n n) (ev_pb (ex_env_n n)) (fun _ _ _ => 1 / 2) o in
    estimate_off (sndr_value false (rewards l) (actions l) (policy l) (model l) (Some (pscores l)) None None) (policy_value (ex_env_n n)) 1) <= 524 / INR n.
Proof.
  intros n Hn. assert (HN : 0 < INR n) by (apply lt_0_INR; auto).
  eapply Rle_trans; [apply (C172_sndr_consistent bool (ex_env_n n) (fun _ _ _ => 1 / 2) None 2 1 1)|].
  - apply ex_env_n_ok; auto.
  - lra.
  - intros; apply ex_env_n_W; auto.
  - intros x s a r p Ha Hr Hp. pose proof (ex_env_n_R n x s a r p Ha Hr Hp). rewrite Rabs_right; lra.
  - intros. rewrite Rabs_right; lra.
  - intros o. right. repeat split; reflexivity.
  - right. change (ev_n (ex_env_n n)) with n. field. lra.
Qed.
Example C172_dros_case : forall n, (0 < n)%nat ->
  prob (log_dist (ex_env_n n)) (fun o => let l := log_of (ex_env_n n) (ev_pb (ex_env_n n)) (fun _ _ _ => 1 / 2) o in
    estimate_off (base_value T_DRos (Fin 16) false (mkTinput (rewards l) (actions l) (policy l) (Some (model l)) (Some (pscores l)) None None)) (policy_value (ex_env_n n)) 1)
  <= 100 / INR n.
Proof.
  intros n Hn. assert (HN : 0 < INR n) by (apply lt_0_INR; auto).
  assert (HW : weights_at_most (ex_env_n n) 2).
  { intros x s a Ha Hb. pose proof (ex_env_n_W n x a s Ha) as H. unfold true_weight. apply (Rmult_le_reg_r (ev_pb (ex_env_n n) x s a)); auto.
    unfold Rdiv. rewrite Rmult_assoc, Rinv_l by lra. lra. }
  eapply Rle_trans; [apply (C172_modified_consistent bool (ex_env_n n) (fun _ _ _ => 1 / 2) T_DRos 16 None 2 1 1)|].
  - apply ex_env_n_ok; auto.
  - apply (support_of_bound (ex_env_n n) (ex_env_n_ok n Hn) 2). intros; apply ex_env_n_W; auto.
  - exact HW.
  - lra.
  - intros o. right. repeat split; reflexivity.
  - intros x s a r p Ha Hr Hp. pose proof (ex_env_n_R n x s a r p Ha Hr Hp). rewrite Rabs_right; lra.
  - intros. rewrite Rabs_right; lra.
  - cbn. lra.
  - right. change (ev_n (ex_env_n n)) with n. rewrite Rmax_right by lra. field. lra.
Qed.
Example C172_replay_case : forall n qh, (0 < n)%nat ->
  prob (log_dist (skew_env n (1 / 4))) (fun o => let l := log_of (skew_env n (1 / 4)) (ev_pb (skew_env n (1 / 4))) qh o in
    estimate_off (rm_value (rewards l) (actions l) (policy l) None) (policy_value (skew_env n (1 / 4))) 1) <= 80 / INR n.
Proof.
  intros n qh Hn. destruct (skew_ok n (1 / 4) Hn ltac:(lra)) as (He & Hid & Hdet & Harg). assert (HN : 0 < INR n) by (apply lt_0_INR; auto).
  eapply Rle_trans; [apply (C172_replay_consistent bool (skew_env n (1 / 4)) qh None _ _ _ (1 / 4) 1 1 He Hid Hdet)|].
  - intros x a r p _ Hr _. simpl in Hr. destruct Hr as [[= <- <-]|[]]. destruct x; rewrite Rabs_right; lra.
  - apply Harg.
  - lra.
  - lra.
  - intros []; reflexivity.
  - right. change (ev_n (skew_env n (1 / 4))) with n. field. lra.
Qed.

Print Assumptions C172_sndr_consistent.
Print Assumptions C172_replay_limit.
Print Assumptions C172_replay_consistent.
Print Assumptions C172_replay_inconsistent.
Print Assumptions C172_modified_limit.
Print Assumptions C172_modified_consistent.
