(** * P_CascadeCons: consistency of the cascade doubly robust estimator (C174). *)

From Coq Require Import Reals List ZArith Bool Lia Lra Psatz.
From Verif Require Import Num NpList M_Utils M_Slate S_Base S_Prob S_Slate S_Conc L_Num L_Base L_Prob L_Unbiased
  L_Slate L_SlateEst L_SlateUnb L_Conc L_Conc3 P_Slate P_SlateVar P_SlateSN.
Import ListNotations.
Open Scope R_scope.

Section CDR.
  Context {X : Type} (e : senv X) (He : senv_ok e) (K : nat) (qh cd : X -> list nat -> nat -> R) (W Rm : R).
  Hypothesis HK : (0 < K)%nat.
  Hypothesis Hmu : forall x, slates_of (se_mu e x) (se_L e) K.
  Hypothesis Hnu : forall x, slates_of (se_nu e x) (se_L e) K.
  Hypothesis Hcd : forall x, conditional_of (se_nu e x) (se_L e) K (cd x).
  Hypothesis Hcd0 : forall x u a, (a < K)%nat -> 0 <= cd x u a.
  Hypothesis Hcd1 : forall x u, sumn K (cd x u) = 1.
  Hypothesis HW : ratio_bound e Cascade W.
  Hypothesis HR : forall x s r p k, In (r, p) (se_rd e x s) -> p <> 0 -> (k < se_L e)%nat -> Rabs (nth k r 0) <= Rm.
  Hypothesis HQ : forall x u a, (a < K)%nat -> Rabs (qh x u a) <= Rm.
  Hypothesis Hstr : reward_structure e Cascade.

  Let T := cdr_term e K qh cd.

  Lemma W_ge_one (x : X) : 1 <= W.
  Proof.
    pose proof (sv_L e He) as HL. pose proof (swt_second e He Cascade W x 0%nat HW HL) as S2.
    assert (M : expect (se_mu e x) (fun s => swt e Cascade x 0%nat s * 1) = 1).
    { unfold swt. rewrite (change_of_measure Cascade 0%nat (se_mu e x) (se_nu e x) (fun _ => 1) (sv_mu e He x)); auto.
      - apply expect_const, He.
      - intros s p Hs Hp. apply (ratio_support e He Cascade W HW x s p 0%nat); auto. }
    assert (0 <= expect (se_mu e x) (fun s => swt e Cascade x 0%nat s * swt e Cascade x 0%nat s - 2 * (swt e Cascade x 0%nat s * 1) + 1)).
    { rewrite <- (expect_const (se_mu e x) 0) by apply He. apply expect_le_supp; [apply He|]. intros s p _ _.
      pose proof (Rle_0_sqr (swt e Cascade x 0%nat s - 1)) as H. unfold Rsqr in H. lra. }
    rewrite expect_plus, expect_minus, expect_scal, expect_const, M in H by apply He. lra.
  Qed.

  Lemma base_bound x u : Rabs (sumn K (fun a => cd x u a * qh x u a)) <= Rm.
  Proof.
    eapply Rle_trans; [apply sumn_abs|]. apply (Rle_trans _ (sumn K (fun a => Rm * cd x u a))).
    - apply sumn_le. intros a Ha. rewrite Rabs_mult, (Rabs_right (cd x u a)) by (apply Rle_ge; auto). rewrite Rmult_comm.
      apply Rmult_le_compat_r; auto.
    - rewrite sumn_scal, Hcd1. lra.
  Qed.
  Lemma Rm_nonneg_x (x : X) : 0 <= Rm.
  Proof. eapply Rle_trans; [apply Rabs_pos|apply (HQ x [] 0%nat HK)]. Qed.

  Lemma cdr_second i : (i < se_n e)%nat ->
    expect (slate_round e i) (fun y => sumn (se_L e) (fun k => T i k (Some y)) * sumn (se_L e) (fun k => T i k (Some y)))
    <= INR (se_L e) * (INR (se_L e) * (10 * W * (Rm * Rm))).
  Proof.
    intros Hi. rewrite expect_slate_round.
    rewrite <- (expect_const (se_ctx e i) (INR (se_L e) * (INR (se_L e) * (10 * W * (Rm * Rm))))) by (apply He; auto).
    apply expect_le_supp; [apply He; auto|]. intros x px _ _.
    set (pw := fun k s => match k with O => 1 | S j => swt e Cascade x j s end). pose proof (Rm_nonneg_x x) as HRm.
    set (bd := fun s => INR (se_L e) * sumn (se_L e) (fun k => 8 * (Rm * Rm) * (swt e Cascade x k s * swt e Cascade x k s) + 2 * (Rm * Rm) * (pw k s * pw k s))).
    apply (Rle_trans _ (expect (se_mu e x) bd)).
    - apply expect_le_supp; [apply He|]. intros s ps Hs Hps.
      rewrite <- (expect_const (se_rd e x s) (bd s)) by apply He.
      apply expect_le_supp; [apply He|]. intros r pr Hr Hpr. eapply Rle_trans; [apply sum_sq|].
      apply Rmult_le_compat_l; [apply pos_INR|]. apply sumn_le. intros k Hk. unfold T, cdr_term. fold (swt e Cascade x k s).
      set (b := sumn K (fun a => cd x (firstn k s) a * qh x (firstn k s) a)).
      replace (match k with O => 1 | S j => propensity Cascade j (se_nu e x) s / propensity Cascade j (se_mu e x) s end) with (pw k s) by (destruct k; reflexivity).
      set (w := swt e Cascade x k s). set (v := pw k s). set (q := qh x (firstn k s) (nth k s 0%nat)).
      assert (Hn : (nth k s 0 < K)%nat). { destruct (Hmu x s ps Hs Hps) as [Hl Hf]. rewrite Forall_forall in Hf. apply Hf, nth_In. lia. }
      assert (Hb : b * b <= Rm * Rm) by (apply sq_le; auto; apply base_bound).
      assert (Hd : (nth k r 0 - q) * (nth k r 0 - q) <= 2 * Rm * (2 * Rm)).
      { apply sq_le; [lra|]. pose proof (HR x s r pr k Hr Hpr Hk). pose proof (HQ x (firstn k s) _ Hn). fold q in H0.
        eapply Rle_trans; [apply Rabs_triang|]. rewrite Rabs_Ropp. lra. }
      set (d := nth k r 0 - q) in *.
      assert (A1 : w * w * (d * d) <= w * w * (2 * Rm * (2 * Rm))) by (apply Rmult_le_compat_l; [apply Rle_0_sqr|auto]).
      assert (A2 : v * v * (b * b) <= v * v * (Rm * Rm)) by (apply Rmult_le_compat_l; [apply Rle_0_sqr|auto]).
      pose proof (Rle_0_sqr (w * d - v * b)) as S. unfold Rsqr in S. nra.
    - unfold bd. rewrite expect_scal, expect_sumn. apply Rmult_le_compat_l; [apply pos_INR|].
      rewrite <- (sumn_const (se_L e) (10 * W * (Rm * Rm))). apply sumn_le. intros k Hk.
      rewrite expect_plus, !expect_scal. pose proof (swt_second e He Cascade W x k HW Hk) as S1.
      assert (S2 : expect (se_mu e x) (fun s => pw k s * pw k s) <= W).
      { destruct k as [|k]; unfold pw.
        - rewrite expect_const by apply He. pose proof (W_ge_one x). lra.
        - apply swt_second; auto. lia. }
      assert (R2 : 0 <= Rm * Rm) by apply Rle_0_sqr. nra.
  Qed.

  Lemma cdr_mean : avg (se_n e) (fun i => expect (slate_round e i) (fun y => sumn (se_L e) (fun k => T i k (Some y)))) = slate_policy_value e.
  Proof.
    assert (Hsup : slate_support e Cascade) by (apply (ratio_support e He Cascade W HW)).
    destruct (cdr_unbiased e He K qh cd HK Hmu Hnu Hcd Hcd1 Hsup Hstr) as (f & Hf & Ef). rewrite <- Ef.
    rewrite (expect_ext (slate_logs e) f (fun o => avg (se_n e) (fun i => sumn (se_L e) (fun k => T i k (nth_error o i))))).
    - symmetry. apply (expect_dprod_avg_opt (se_n e) (slate_round e) (fun i y => sumn (se_L e) (fun k => T i k y))). apply is_dist_slate_round; auto.
    - intros o p Ho Hp. pose proof (Hf o p Ho Hp) as V. cbv zeta in V. rewrite (cdr_on_log e He K qh cd HK Hmu Hcd1 o p Ho Hp) in V.
      injection V as V. symmetry. exact V.
  Qed.

  Lemma cdr_consistent eps : 0 < eps ->
    prob (slate_logs e) (fun o => let l := slate_log e Cascade o in
      estimate_off (cascade_dr_value (se_L e) K (s_ids l) (tabZ (sl_n l) (log_action e o)) (s_rew l) (s_pos l) (s_p l) (s_pe l)
        (flat2 (sl_n l) K (log_table e qh o)) (flat2 (sl_n l) K (log_table e cd o))) (slate_policy_value e) eps)
    <= INR (se_L e) * (INR (se_L e) * (10 * W * (Rm * Rm))) / (INR (se_n e) * (eps * eps)).
  Proof.
    intros Heps. eapply Rle_trans.
    2:{ apply (chebyshev (slate_round e) (se_n e) (fun i y => sumn (se_L e) (fun k => T i k y)) (INR (se_L e) * (INR (se_L e) * (10 * W * (Rm * Rm)))) eps (sv_n e He) Heps).
        intros; apply is_dist_slate_round; auto. intros i Hi. apply cdr_second; auto. }
    right. unfold prob, slate_logs. apply expect_ext. intros o p Ho Hp. cbv beta. rewrite cdr_mean.
    cbv zeta. rewrite (cdr_on_log e He K qh cd HK Hmu Hcd1 o p Ho Hp). reflexivity.
  Qed.
End CDR.

(** ** C174 *)

(** Cascade weights at most W, rewards and predictions at most Rm in absolute value, the cascade assumption, the evaluation policy's
    own conditional distributions: on n independent slates of length L, cascade-DR misses the value of the evaluation policy by eps
    or more (or returns no finite number) with probability at most 10 L^2 W Rm^2 / (n eps^2), whatever the reward model. *)
Theorem C174_cascade_dr_consistent : forall (X : Type) (e : senv X) (K : nat) (qh cd : X -> list nat -> nat -> R) W Rm eps,
  senv_ok e -> (0 < K)%nat -> 0 < eps ->
  (forall x, slates_of (se_mu e x) (se_L e) K) -> (forall x, slates_of (se_nu e x) (se_L e) K) ->
  (forall x, conditional_of (se_nu e x) (se_L e) K (cd x)) ->
  (forall x u a, (a < K)%nat -> 0 <= cd x u a) -> (forall x u, sumn K (cd x u) = 1) ->
  (forall x s k, (k < se_L e)%nat -> propensity Cascade k (se_nu e x) s <= W * propensity Cascade k (se_mu e x) s) ->
  (forall x s r p k, In (r, p) (se_rd e x s) -> p <> 0 -> (k < se_L e)%nat -> Rabs (nth k r 0) <= Rm) ->
  (forall x u a, (a < K)%nat -> Rabs (qh x u a) <= Rm) -> reward_structure e Cascade ->
  prob (slate_logs e) (fun o => let l := slate_log e Cascade o in
    estimate_off (cascade_dr_value (se_L e) K (s_ids l) (tabZ (sl_n l) (log_action e o)) (s_rew l) (s_pos l) (s_p l) (s_pe l)
      (flat2 (sl_n l) K (log_table e qh o)) (flat2 (sl_n l) K (log_table e cd o))) (slate_policy_value e) eps)
  <= 10 * INR (se_L e) ^ 2 * W * Rm ^ 2 / (INR (se_n e) * eps ^ 2).
Proof.
  intros X e K qh cd W Rm eps He HK Heps Hmu Hnu Hcd Hcd0 Hcd1 HW HR HQ Hstr.
  eapply Rle_trans; [apply (cdr_consistent e He K qh cd W Rm HK Hmu Hnu Hcd Hcd0 Hcd1 HW HR HQ Hstr eps Heps)|].
  right. unfold Rdiv. replace (eps ^ 2) with (eps * eps) by ring. ring.
Qed.

(** A case: slates (0,0) and (0,1), logged evenly, of which the evaluation policy shows the second with probability 2/3; rewards 1 and
    (1 if the second action is 0); the reward model predicts 1/2 everywhere. *)
Definition casc_env (n : nat) : senv unit := {|
  se_n := n; se_L := 2; se_ctx := fun _ => [(tt, 1)];
  se_mu := fun _ => [([0; 0]%nat, 1 / 2); ([0; 1]%nat, 1 / 2)];
  se_nu := fun _ => [([0; 0]%nat, 1 / 3); ([0; 1]%nat, 2 / 3)];
  se_rd := fun _ s => [([1; if Nat.eqb (nth 1 s 0%nat) 0 then 1 else 0], 1)] |}.
Definition casc_cond (u : list nat) (a : nat) : R :=
  match u, a with [], 0%nat => 1 | [], _ => 0 | _, 0%nat => 1 / 3 | _, 1%nat => 2 / 3 | _, _ => 0 end.
Example C174_example : forall n, (0 < n)%nat ->
  prob (slate_logs (casc_env n)) (fun o => let l := slate_log (casc_env n) Cascade o in
    estimate_off (cascade_dr_value 2 2 (s_ids l) (tabZ (sl_n l) (log_action (casc_env n) o)) (s_rew l) (s_pos l) (s_p l) (s_pe l)
      (flat2 (sl_n l) 2 (log_table (casc_env n) (fun _ _ _ => 1 / 2) o)) (flat2 (sl_n l) 2 (log_table (casc_env n) (fun _ => casc_cond) o)))
      (slate_policy_value (casc_env n)) (1 / 2)) <= 640 / 3 / INR n.
Proof.
  intros n Hn. assert (HN : 0 < INR n) by (apply lt_0_INR; auto).
  eapply Rle_trans; [apply (C174_cascade_dr_consistent unit (casc_env n) 2 (fun _ _ _ => 1 / 2) (fun _ => casc_cond) (4 / 3) 1 (1 / 2))|].
  - constructor; simpl; auto; try lia; intros.
    + split; [|unfold expect; simpl; lra]. intros a p [E|[]]; injection E as <- <-; lra.
    + split; [|unfold expect; simpl; lra]. intros a p [E|[E|[]]]; injection E as <- <-; lra.
    + split; [|unfold expect; simpl; lra]. intros a p [E|[E|[]]]; injection E as <- <-; lra.
    + split; [|unfold expect; simpl; lra]. intros a p [E|[]]; injection E as <- <-; lra.
  - lia.
  - lra.
  - intros x s p H _. simpl in H. repeat (destruct H as [[= <- <-]|H]; [simpl; split; [auto|repeat constructor]|]). tauto.
  - intros x s p H _. simpl in H. repeat (destruct H as [[= <- <-]|H]; [simpl; split; [auto|repeat constructor]|]). tauto.
  - intros x u k a Hu Hk Ha. destruct k as [|[|k]]; [| |simpl in Hk; lia].
    + destruct u; [|discriminate]. unfold expect; simpl. destruct a as [|[|a]]; [| |lia]; simpl; lra.
    + destruct u as [|b [|]]; try discriminate. unfold expect; simpl.
      destruct a as [|[|a]]; [| |lia]; destruct b as [|b]; simpl; lra.
  - intros x u a Ha. destruct u, a as [|[|a]]; simpl; lra || lia.
  - intros x u. destruct u; simpl; lra.
  - intros x s k Hk; exact (rev_ratio Cascade x s k Hk).
  - intros x s r p k [E|[]] _ Hk. injection E as <- _. destruct k as [|[|k]]; simpl in *; try lia; [|destruct (Nat.eqb _ _)]; rewrite Rabs_right; lra.
  - intros. rewrite Rabs_right; lra.
  - intros x s t k Hk H.
    assert (E1 : nth k s 0%nat = nth k t 0%nat).
    { rewrite (nth_firstn_eq k s), (nth_firstn_eq k t), (agree_firstn k s t (S k) H) by lia. reflexivity. }
    simpl in Hk. unfold slate_q, expect; simpl. destruct k as [|[|k]]; try lia; [lra|]. rewrite E1. reflexivity.
  - right. change (se_n (casc_env n)) with n. change (INR (se_L (casc_env n))) with (1 + 1). field. lra.
Qed.

Print Assumptions C174_cascade_dr_consistent.
