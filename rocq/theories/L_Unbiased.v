(** * L_Unbiased: unbiasedness and double robustness. *)

From Coq Require Import Reals List ZArith Lia Lra.
From Verif Require Import Num NpList M_Utils M_Estimators S_Base S_Prob S_Estimators S_Env
  L_Num L_Base L_Prob L_Estimators.
Import ListNotations.
Open Scope R_scope.

(** Linearity with [nth_error] access. *)
Lemma expect_dprod_sumn_opt {A} n (D : nat -> dist A) (g : nat -> option A -> R) :
  (forall i, (i < n)%nat -> is_dist (D i)) ->
  expect (dprod n D) (fun o => sumn n (fun i => g i (nth_error o i)))
  = sumn n (fun i => expect (D i) (fun x => g i (Some x))).
Proof.
  induction n; simpl; intros H; [lra|].
  rewrite expect_dbind.
  rewrite (expect_ext (dprod n D) _
            (fun o => sumn n (fun i => g i (nth_error o i)) + expect (D n) (fun x => g n (Some x)))).
  - rewrite expect_plus, IHn by auto. rewrite expect_const by (apply is_dist_dprod; auto). lra.
  - intros o p Ho Hp. apply In_dprod in Ho as [Hl _]; auto. rewrite expect_dmap.
    rewrite (expect_ext_all (D n) _ (fun x => sumn n (fun i => g i (nth_error o i)) + g n (Some x))).
    + rewrite expect_plus, expect_const by auto. reflexivity.
    + intros x. f_equal.
      * apply sumn_ext. intros i Hi. rewrite nth_error_app1 by lia. reflexivity.
      * rewrite nth_error_app2 by lia. rewrite Hl, Nat.sub_diag. reflexivity.
Qed.

Lemma expect_dprod_avg_opt {A} n (D : nat -> dist A) (g : nat -> option A -> R) :
  (forall i, (i < n)%nat -> is_dist (D i)) ->
  expect (dprod n D) (fun o => avg n (fun i => g i (nth_error o i)))
  = avg n (fun i => expect (D i) (fun x => g i (Some x))).
Proof.
  intros H. unfold avg, Rdiv. rewrite expect_scal_r. f_equal. apply expect_dprod_sumn_opt; auto.
Qed.

Lemma In_dprod_opt {A} n (D : nat -> dist A) o p :
  In (o, p) (dprod n D) -> p <> 0 ->
  forall i, (i < n)%nat -> exists x q, nth_error o i = Some x /\ In (x, q) (D i) /\ q <> 0.
Proof.
  intros H Hp i Hi. destruct (In_dprod n D o p H Hp) as [Hl H'].
  destruct (nth_error o i) as [x|] eqn:E.
  - destruct (H' i x Hi) as (q & Hq & Hq0). exists x, q. split; auto.
    rewrite (nth_error_nth o i x E) in Hq. auto.
  - apply nth_error_None in E. lia.
Qed.

Section Env.
  Context {X : Type} (e : benv X) (He : env_ok e).

  Lemma is_dist_round i : (i < ev_n e)%nat -> is_dist (round_dist e i).
  Proof.
    intros Hi. unfold round_dist. apply is_dist_dbind. apply He; auto.
    intros x p _. apply is_dist_dbind. apply is_dist_dtab. intros; apply He; auto. apply He.
    intros a q _. apply is_dist_dmap. apply He.
  Qed.

  Lemma In_round i x a r p : In ((x, a, r), p) (round_dist e i) -> p <> 0 ->
    (a < ev_K e)%nat /\ 0 < ev_pb e x (ev_pos e i) a.
  Proof.
    intros H Hp. unfold round_dist in H.
    apply In_dbind in H as (x' & p1 & p2 & Hx & H & ->).
    apply In_dbind in H as (a' & p3 & p4 & Ha & H & ->).
    apply In_dmap in H as (r' & E & Hr). injection E as <- <- <-.
    apply In_dtab in Ha as [Ha ->]. split; auto.
    destruct (Rle_lt_or_eq_dec 0 _ (eo_pb0 e He x (ev_pos e i) a Ha)) as [|E]; auto.
    exfalso; apply Hp. rewrite <- E. lra.
  Qed.

  Lemma expect_round i (g : X * nat * R -> R) (f : X -> nat -> R -> R) :
    (forall x a r, g (x, a, r) = f x a r) ->
    expect (round_dist e i) g
    = expect (ev_ctx e i) (fun x => sumn (ev_K e) (fun a =>
        expect (ev_rd e x (ev_pos e i) a) (f x a) * ev_pb e x (ev_pos e i) a)).
  Proof.
    intros Hg. unfold round_dist. rewrite expect_dbind. apply expect_ext_all. intros x.
    rewrite expect_dbind, expect_dtab. apply sumn_ext. intros a Ha.
    rewrite expect_dmap. f_equal. apply expect_ext_all. auto.
  Qed.

  (** An outcome of positive probability gives an accepted log. *)
  Lemma accepted_log pt qh o p :
    (forall x s a, (a < ev_K e)%nat -> 0 < ev_pb e x s a -> 0 < pt x s a) ->
    In (o, p) (log_dist e) -> p <> 0 -> accepted (log_of e pt qh o).
  Proof.
    intros Hpt Ho Hp. pose proof (In_dprod_opt _ _ _ _ Ho Hp) as HI.
    assert (HI' : forall i, (i < ev_n e)%nat -> exists x a r, nth_error o i = Some (x, a, r) /\
                  (a < ev_K e)%nat /\ 0 < ev_pb e x (ev_pos e i) a).
    { intros i Hi. destruct (HI i Hi) as ([[x a] r] & q & E & Hq & Hq0).
      exists x, a, r. split; auto. eapply In_round; eauto. }
    constructor; simpl.
    - apply He.
    - intros i Hi. destruct (HI' i Hi) as (x & a & r & -> & Ha & _). auto.
    - intros i Hi. apply He; auto.
    - intros i Hi. destruct (HI' i Hi) as (x & a & r & -> & Ha & Hb). auto.
    - intros i s Hi Hs. destruct (HI' i Hi) as (x & a & r & -> & _).
      rewrite (eo_pe1 e He). replace (1 - 1) with 0 by lra. rewrite Rabs_R0.
      pose proof tol_lt1; lra.
  Qed.

  Lemma ipw_unbiased arg o_arg :
    common_support e ->
    (forall o, position_arg (log_of e (ev_pb e) arg o) o_arg) ->
    expects (log_dist e)
      (fun o => let l := log_of e (ev_pb e) arg o in
                ipw_value PInf false (rewards l) (actions l) (policy l) (Some (pscores l)) o_arg None)
      (policy_value e).
  Proof.
    intros Hcs Harg. exists (fun o => spec_ipw None (log_of e (ev_pb e) arg o)). split.
    - intros o p Ho Hp. cbv zeta. apply (ipw_value_ok None).
      + eapply accepted_log; eauto.
      + apply Harg.
      + reflexivity.
    - unfold spec_ipw, weight, clip, log_dist. cbn [lg_n lg_r lg_pi lg_a lg_pos lg_p log_of].
      rewrite (expect_ext_all _ _ (fun o => avg (ev_n e) (fun i =>
         match nth_error o i with
         | Some (x, a, r) => r * (ev_pe e x a (ev_pos e i) / ev_pb e x (ev_pos e i) a)
         | None => 0 end))).
      2:{ intros o. apply avg_ext. intros i Hi. destruct (nth_error o i) as [[[x a] r]|]; lra. }
      rewrite (expect_dprod_avg_opt _ _ (fun i y => match y with
         | Some (x, a, r) => r * (ev_pe e x a (ev_pos e i) / ev_pb e x (ev_pos e i) a)
         | None => 0 end)) by apply is_dist_round.
      apply avg_ext. intros i Hi.
      rewrite (expect_round i _ (fun x a r =>
         r * (ev_pe e x a (ev_pos e i) / ev_pb e x (ev_pos e i) a))) by reflexivity.
      apply expect_ext_all. intros x. apply sumn_ext. intros a Ha.
      rewrite expect_scal_r. unfold q_true.
      destruct (Rle_lt_or_eq_dec 0 _ (eo_pe0 e He x a (ev_pos e i) Ha)) as [Hpos|Hz].
      + pose proof (Hcs x a (ev_pos e i) Ha Hpos). field. lra.
      + rewrite <- Hz. unfold Rdiv. lra.
  Qed.

  Lemma q_pi_log pt qh o i x a r : (i < ev_n e)%nat -> nth_error o i = Some (x, a, r) ->
    q_pi (log_of e pt qh o) i
    = sumn (ev_K e) (fun b => qh x b (ev_pos e i) * ev_pe e x b (ev_pos e i)).
  Proof.
    intros Hi E. unfold q_pi. cbn [lg_K lg_q lg_pi lg_pos log_of]. rewrite E.
    rewrite (eo_pe1 e He). field.
  Qed.

  (** Expected DR round contribution for any transform [wt] of the logged weights. *)
  Lemma dr_unbiased_gen pt qh (wt : R -> R) (f : list (X * nat * R) -> res num) :
    (forall o p, In (o, p) (log_dist e) -> p <> 0 ->
       f o = Ok (Fin (spec_dr_with wt (log_of e pt qh o)))) ->
    (forall x s a, (a < ev_K e)%nat ->
       wt (ev_pe e x a s / pt x s a) * (q_true e x s a - qh x a s) * ev_pb e x s a
       = ev_pe e x a s * (q_true e x s a - qh x a s)) ->
    expects (log_dist e) f (policy_value e).
  Proof.
    intros Hf Hw. exists (fun o => spec_dr_with wt (log_of e pt qh o)). split; auto.
    set (G := fun (i : nat) (y : option (X * nat * R)) => match y with
         | Some (x, a, r) =>
            sumn (ev_K e) (fun b => qh x b (ev_pos e i) * ev_pe e x b (ev_pos e i))
            + wt (ev_pe e x a (ev_pos e i) / pt x (ev_pos e i) a) * (r - qh x a (ev_pos e i))
         | None => 0 end).
    rewrite (expect_ext (log_dist e) _ (fun o => avg (ev_n e) (fun i => G i (nth_error o i)))).
    2:{ intros o p Ho Hp. rewrite <- dr_sum. apply avg_ext. intros i Hi.
        destruct (In_dprod_opt _ _ _ _ Ho Hp i Hi) as ([[x a] r] & q & E & _ & _).
        rewrite (q_pi_log _ _ _ _ _ _ _ Hi E). unfold weight, q_at, G.
        cbn [lg_r lg_q lg_pi lg_a lg_p lg_pos log_of]. rewrite E. reflexivity. }
    unfold log_dist. rewrite expect_dprod_avg_opt by apply is_dist_round.
    apply avg_ext. intros i Hi. unfold G.
    rewrite (expect_round i _ (fun x a r =>
            sumn (ev_K e) (fun b => qh x b (ev_pos e i) * ev_pe e x b (ev_pos e i))
            + wt (ev_pe e x a (ev_pos e i) / pt x (ev_pos e i) a) * (r - qh x a (ev_pos e i)))) by reflexivity.
    apply expect_ext_all. intros x.
    set (Q := sumn (ev_K e) (fun b => qh x b (ev_pos e i) * ev_pe e x b (ev_pos e i))).
    rewrite (sumn_ext _ _ (fun a => Q * ev_pb e x (ev_pos e i) a
        + (ev_pe e x a (ev_pos e i) * q_true e x (ev_pos e i) a
           - qh x a (ev_pos e i) * ev_pe e x a (ev_pos e i)))).
    - rewrite sumn_plus, sumn_scal, (eo_pb1 e He), sumn_minus. fold Q. lra.
    - intros a Ha.
      rewrite expect_plus, expect_const by (apply He).
      rewrite expect_scal, expect_minus, expect_const by (apply He). fold (q_true e x (ev_pos e i) a).
      pose proof (Hw x (ev_pos e i) a Ha). lra.
  Qed.

  Lemma dr_unbiased_pscore qh o_arg :
    common_support e ->
    (forall o, position_arg (log_of e (ev_pb e) qh o) o_arg) ->
    expects (log_dist e)
      (fun o => let l := log_of e (ev_pb e) qh o in
                dr_value PInf false (rewards l) (actions l) (policy l) (model l)
                         (Some (pscores l)) o_arg None)
      (policy_value e).
  Proof.
    intros Hcs Harg. apply (dr_unbiased_gen (ev_pb e) qh (clip None)).
    - intros o p Ho Hp. cbv zeta. apply (dr_value_ok None).
      eapply accepted_log; eauto. apply Harg. reflexivity.
    - intros x s a Ha. simpl.
      destruct (Rle_lt_or_eq_dec 0 _ (eo_pe0 e He x a s Ha)) as [Hpos|Hz].
      + pose proof (Hcs x a s Ha Hpos). field. lra.
      + rewrite <- Hz. unfold Rdiv. lra.
  Qed.

  Lemma dr_unbiased_model pt lam o_arg :
    (forall x s a, (a < ev_K e)%nat -> 0 < ev_pb e x s a -> 0 < pt x s a) ->
    (forall o, position_arg (log_of e pt (fun x a s => q_true e x s a) o) o_arg) ->
    expects (log_dist e)
      (fun o => let l := log_of e pt (fun x a s => q_true e x s a) o in
                dr_value (lam_num lam) false (rewards l) (actions l) (policy l) (model l)
                         (Some (pscores l)) o_arg None)
      (policy_value e).
  Proof.
    intros Hpt Harg. apply (dr_unbiased_gen pt (fun x a s => q_true e x s a) (clip lam)).
    - intros o p Ho Hp. cbv zeta. apply dr_value_ok.
      eapply accepted_log; eauto. apply Harg. reflexivity.
    - intros x s a Ha. simpl. lra.
  Qed.
End Env.
