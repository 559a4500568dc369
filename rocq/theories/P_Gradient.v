(** * P_Gradient: the policy gradients of [NNPolicyLearner] are unbiased (C125). *)

From Coq Require Import Reals List ZArith Lia Lra.
From Coquelicot Require Import Coquelicot.
From Verif Require Import Num NpList M_Offline S_Base S_Prob S_Env S_Offline S_Gradient L_Num L_Base L_Prob L_Unbiased L_Offline.
Import ListNotations.
Open Scope R_scope.

Lemma is_derive_expect {A} (d : dist A) (f : R -> A -> R) t0 (df : A -> R) :
  (forall x, is_derive (fun t => f t x) t0 (df x)) -> is_derive (fun t => expect d (f t)) t0 (expect d df).
Proof.
  intros H. induction d as [|[x p] d IH]; simpl.
  - apply (is_derive_const (V := R_NormedModule)).
  - apply (is_derive_plus (V := R_NormedModule) (fun t => f t x * p) (fun t => expect d (f t))); auto.
    apply (is_derive_ext (fun t => p * f t x)). { intros; apply Rmult_comm. }
    rewrite Rmult_comm. apply is_derive_scal. auto.
Qed.

Lemma sum_derive_zero K (f : R -> nat -> R) t0 df :
  (forall t, sumn K (f t) = 1) -> (forall a, (a < K)%nat -> is_derive (fun t => f t a) t0 (df a)) -> sumn K df = 0.
Proof.
  intros H1 Hd. assert (Hs := is_derive_sumn K f t0 df Hd).
  assert (Hc : is_derive (fun t => sumn K (f t)) t0 0).
  { apply (is_derive_ext (fun _ => 1)). intros; auto. apply (is_derive_const (V := R_NormedModule)). }
  apply is_derive_unique in Hs. apply is_derive_unique in Hc. congruence.
Qed.

(** Let [f t] be a family of policies with positive probabilities, differentiable at the current parameter [t0].  Then the
    derivative that [fit] takes of the batch mean of its surrogate (the current policy detached, the live one in the
    logarithm) averages, over all logs of the environment, to the derivative of the true policy value: for IPW, for DR
    whatever the reward model, for self-normalised IPW whatever [lambda_], and for the direct method with the true
    reward function.  A minibatch is such a log, with the contexts of the chosen rounds. *)
Theorem C125_unbiased_gradient : forall {X} (e : benv X) (f : R -> X -> nat -> R) (df : X -> nat -> R) t0 (qh : X -> nat -> R) o lambda lv,
  (forall t, env_ok (with_policy e (f t))) ->
  (forall x s a, (a < ev_K e)%nat -> 0 < ev_pb e x s a) ->
  (forall t x a, (a < ev_K e)%nat -> 0 < f t x a) ->
  (forall x a, (a < ev_K e)%nat -> is_derive (fun t => f t x a) t0 (df x a)) ->
  nn_lambda o (option_map Fin lambda) = Ok lv ->
  (o = Ipw \/ o = Dr \/ o = Snipw \/ (o = Dm /\ forall x s a, qh x a = q_true e x s a)) ->
  exists G : list (X * nat * R) -> R,
    (forall out p, In (out, p) (log_dist e) -> p <> 0 -> exists S : R -> R,
       let b := batch_of e qh out in
       (forall t, rmap nmean (policy_grad_arr o lv (b_model b) (tab2F (bt_n b) (bt_K b) (played (f t0) out))
                    (tab2F (bt_n b) (bt_K b) (played (f t) out)) (b_actions b) (b_rewards b) (b_pscores b)) = Ok (Fin (S t))) /\
       is_derive S t0 (G out)) /\
    is_derive (fun t => policy_value (with_policy e (f t))) t0 (expect (log_dist e) G).
Proof.
  intros X e f df t0 qh o lambda lv He Hpb Hpos Hd Hl Ho. apply nn_lambda_ok in Hl.
  set (lam := lambda_value o lambda) in *. assert (He0 := He t0).
  set (dpl := fun (out : list (X * nat * R)) i a => match nth_error out i with Some (x, _, _) => df x a | None => 0 end).
  exists (fun out => avg (ev_n e) (dround o lam (batch_of e qh out) (played (f t0) out) (dpl out))).
  assert (Hlog : log_dist e = log_dist (with_policy e (f t0))) by reflexivity.
  assert (Hdist : forall i, (i < ev_n e)%nat -> is_dist (round_dist e i)) by exact (is_dist_round _ He0).
  split.
  - intros out p Hin Hp.
    assert (Hout : forall i, (i < ev_n e)%nat -> exists x a r, nth_error out i = Some (x, a, r) /\ (a < ev_K e)%nat).
    { intros i Hi. destruct (In_dprod_opt _ _ _ _ Hin Hp i Hi) as (((x, a), r) & q & E & Hq & Hq0). exists x, a, r. split; auto.
      apply (In_round _ He0 i x a r q Hq Hq0). }
    set (b := batch_of e qh out).
    assert (Hb : batch_ok b).
    { constructor; simpl.
      - apply (eo_n _ He0).
      - intros i Hi. destruct (Hout i Hi) as (x & a & r & E & Ha). rewrite E. auto.
      - intros i Hi. destruct (Hout i Hi) as (x & a & r & E & Ha). rewrite E. auto. }
    assert (Hpl : forall t, positive b (played (f t) out)).
    { intros t i a Hi Ha. unfold played. destruct (Hout i Hi) as (x & a' & r & E & _). rewrite E. apply Hpos. exact Ha. }
    exists (fun t => avg (bt_n b) (surrogate o lam b (played (f t0) out) (played (f t) out))). split.
    + intros t. rewrite (policy_grad_arr_ok o lv lam) by auto. unfold rmap. cbn [bind]. rewrite nmean_tabF by apply Hb. reflexivity.
    + apply (is_derive_avg (bt_n b) (fun t => surrogate o lam b (played (f t0) out) (played (f t) out))). intros i Hi.
      apply (surrogate_derive o lam b (fun t => played (f t) out) (dpl out) t0 i); auto. intros a Ha. unfold played, dpl. destruct (Hout i Hi) as (x & a' & r & E & _). rewrite E. apply Hd. exact Ha.
  - assert (Hsum : forall x, sumn (ev_K e) (df x) = 0).
    { intros x. apply (sum_derive_zero (ev_K e) (fun t => f t x) t0).
      - intros t. exact (eo_pe1 _ (He t) x 0%nat).
      - auto. }
    assert (Hq1 : forall x s a c, expect (ev_rd e x s a) (fun r => r - c) = q_true e x s a - c).
    { intros x s a c. rewrite expect_minus, expect_const by (apply (eo_rd _ He0)). reflexivity. }
    assert (HG : expect (log_dist e) (fun out => avg (ev_n e) (dround o lam (batch_of e qh out) (played (f t0) out) (dpl out))) =
       avg (ev_n e) (fun i => expect (ev_ctx e i) (fun x => sumn (ev_K e) (fun a => df x a * q_true e x (ev_pos e i) a)))).
    { set (g := fun (i : nat) (t : option (X * nat * R)) =>
        match t with
        | None => 0
        | Some (x, a, r) =>
            (match o with Dm => 0 | Ipw => df x a / ev_pb e x (ev_pos e i) a * (r - 0) | Snipw => df x a / ev_pb e x (ev_pos e i) a * (r - lam)
             | Dr => df x a / ev_pb e x (ev_pos e i) a * (r - qh x a) | _ => 0 end) +
            (match o with Dm | Dr => sumn (ev_K e) (fun c => qh x c * df x c) | _ => 0 end)
        end).
      rewrite (expect_ext (log_dist e) _ (fun out => avg (ev_n e) (fun i => g i (nth_error out i)))).
      2:{ intros out p Hin Hp. apply avg_ext. intros i Hi. destruct (In_dprod_opt _ _ _ _ Hin Hp i Hi) as (((x, a), r) & q & E & _ & _).
          unfold g. rewrite E. unfold dround, dpl. cbn [batch_of bt_a bt_p bt_K bt_q bt_r]. rewrite E.
          destruct Ho as [->|[->|[->|[-> _]]]]; cbn [dtransform adjusted_reward batch_of bt_a bt_r bt_q]; rewrite ?E; try ring. }
      unfold log_dist. rewrite expect_dprod_avg_opt by auto. apply avg_ext. intros i Hi. set (s := ev_pos e i).
      rewrite (expect_round e i _ (fun x a r => g i (Some (x, a, r)))) by reflexivity. apply expect_ext_all. intros x. unfold g. fold s.
      transitivity (sumn (ev_K e) (fun a => (match o with Dm => 0 | Ipw => df x a * (q_true e x s a - 0) | Snipw => df x a * (q_true e x s a - lam)
         | Dr => df x a * (q_true e x s a - qh x a) | _ => 0 end) +
         ev_pb e x s a * match o with Dm | Dr => sumn (ev_K e) (fun c => qh x c * df x c) | _ => 0 end)).
      { apply sumn_ext. intros a Ha. specialize (Hpb x s a Ha). rewrite expect_plus, expect_const by (apply (eo_rd _ He0)).
        rewrite Rmult_plus_distr_r. f_equal; [|ring].
        destruct Ho as [->|[->|[->|[-> _]]]]; rewrite ?expect_scal, ?Hq1; try (field; lra).
        rewrite expect_const by (apply (eo_rd _ He0)). ring. }
      rewrite sumn_plus.
      assert (Hone : forall c, sumn (ev_K e) (fun a => ev_pb e x s a * c) = c).
      { intros c. rewrite sumn_scal_r. pose proof (eo_pb1 _ He0 x s) as H1. simpl in H1. rewrite H1. ring. }
      rewrite Hone. destruct Ho as [->|[->|[->|[-> Hq]]]].
      - rewrite Rplus_0_r. apply sumn_ext. intros; ring.
      - rewrite <- sumn_plus. apply sumn_ext. intros; ring.
      - rewrite Rplus_0_r. rewrite (sumn_ext _ _ (fun a => df x a * q_true e x s a + df x a * (- lam))) by (intros; ring).
        rewrite sumn_plus, sumn_scal_r, Hsum. ring.
      - rewrite sumn_zero by auto. rewrite Rplus_0_l. apply sumn_ext. intros a Ha. rewrite (Hq x s a). ring. }
    rewrite HG. unfold policy_value. cbn [with_policy ev_n ev_ctx ev_K ev_pe ev_pos].
    apply (is_derive_avg (ev_n e) (fun t i => expect (ev_ctx e i) (fun x => sumn (ev_K e) (fun a => f t x a * q_true e x (ev_pos e i) a)))).
    intros i Hi. apply (is_derive_expect (ev_ctx e i) (fun t x => sumn (ev_K e) (fun a => f t x a * q_true e x (ev_pos e i) a))). intros x.
    apply (is_derive_sumn (ev_K e) (fun t a => f t x a * q_true e x (ev_pos e i) a)). intros a Ha.
    apply (is_derive_ext (fun t => q_true e x (ev_pos e i) a * f t x a)). { intros; apply Rmult_comm. }
    rewrite Rmult_comm. apply is_derive_scal. auto.
Qed.

(** Two actions; the behaviour policy is uniform, action 1 is rewarded, and the policy is a softmax with logits [0], [t]. *)
Definition ex_grad_env : benv unit :=
  mkEnv 3 2 1 (fun _ => 0%nat) (fun _ => [(tt, 1)]) (fun _ _ _ => 1 / 2) (fun _ _ _ => 1 / 2)
    (fun _ _ a => [(INR a, 1)]).
Definition ex_family (t : R) (_ : unit) (a : nat) : R := match a with O => 1 / (1 + exp t) | _ => exp t / (1 + exp t) end.

Example C125_meets :
  (forall t, env_ok (with_policy ex_grad_env (ex_family t))) /\
  (forall x s a, (a < ev_K ex_grad_env)%nat -> 0 < ev_pb ex_grad_env x s a) /\
  (forall t x a, (a < ev_K ex_grad_env)%nat -> 0 < ex_family t x a) /\
  (forall x a, (a < ev_K ex_grad_env)%nat -> is_derive (fun t => ex_family t x a) 0 (match a with O => - (1 / 4) | _ => 1 / 4 end)) /\
  (forall t, policy_value (with_policy ex_grad_env (ex_family t)) = exp t / (1 + exp t)).
Proof.
  assert (Hpos : forall t x a, 0 < ex_family t x a).
  { intros t x a. unfold ex_family. pose proof (exp_pos t). destruct a; apply Rdiv_lt_0_compat; lra. }
  split; [|split; [|split; [|split]]].
  - intros t. constructor; simpl; try lia; try (intros; lra).
    + intros i Hi. split; simpl; [intros x p [E|[]]; injection E as <- <-; lra|lra].
    + intros x a s _. apply Rlt_le, Hpos.
    + intros x s. pose proof (exp_pos t). unfold ex_family. field. lra.
    + intros x s a. split; simpl; [intros y p [E|[]]; injection E as <- <-; lra|lra].
  - intros. simpl. lra.
  - auto.
  - intros x a _. unfold ex_family. destruct a; auto_derive; try (rewrite exp_0; lra); rewrite exp_0; field.
  - intros t. pose proof (exp_pos t). unfold policy_value, avg, q_true, ex_family. simpl. field. lra.
Qed.

Print Assumptions C125_unbiased_gradient.
