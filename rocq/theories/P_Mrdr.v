(** * P_Mrdr: what the weighted squared errors of the reward model mean (C104). *)

From Coq Require Import Reals List ZArith Lia Lra Bool.
From Verif Require Import Num NpList M_Utils M_Estimators M_Reg S_Base S_Reg S_Estimators L_Num L_Base L_Estimators L_Policy.
Import ListNotations.
Open Scope R_scope.

(** The log of one round: action [a] with reward [r], logging policy [pb], evaluation policy [pe], reward model [f]. *)
Definition one_round (K : nat) (pb pe f : nat -> R) (a : nat) (r : R) : blog :=
  S_Estimators.mkLog 1 K 1 (fun _ => r) (fun _ => a) (fun _ => 0%nat) (fun _ => pb a) (fun _ b _ => pe b) (fun _ b _ => f b).
(** What DoublyRobust returns on it. *)
Definition dr_one_round (K : nat) (pb pe f : nat -> R) (a : nat) (r : R) : res num :=
  let l := one_round K pb pe f a r in
  dr_value PInf false (rewards l) (actions l) (policy l) (model l) (Some (pscores l)) None None.

Lemma dr_one_round_ok K pb pe f a r : (a < K)%nat -> 0 < pb a -> sumn K pe = 1 ->
  dr_one_round K pb pe f a r = Ok (Fin (sumn K (fun b => f b * pe b) + pe a / pb a * (r - f a))).
Proof.
  intros Ha Hp He. unfold dr_one_round. cbv zeta. change PInf with (lam_num None). rewrite dr_value_ok.
  - f_equal. f_equal. unfold spec_dr, spec_dr_with, spec_dm, avg, q_pi, q_at, weight, one_round, clip.
    cbn [lg_n lg_K lg_L lg_r lg_a lg_pos lg_p lg_pi lg_q]. rewrite !(sumn_S_first 0). cbn [sumn]. change (sumn K (fun b => pe b)) with (sumn K pe). rewrite He.
    change (INR 1) with 1. field. lra.
  - constructor; cbn [lg_n lg_K lg_L lg_r lg_a lg_pos lg_p lg_pi lg_q one_round]; intros; try lia; auto. change (sumn K (fun b => pe b)) with (sumn K pe). rewrite He. rewrite Rminus_diag_eq by auto. rewrite Rabs_R0. unfold tol. lra.
  - right. repeat split. 
  - reflexivity.
Qed.

Lemma expect_split K m pb pr s c (g : nat -> R) : round_ok K m pb pr -> (s < K)%nat ->
  expect_round K m pb pr (fun a o => c + (if Nat.eqb a s then g o else 0)) = c + pb s * sumn m (fun o => pr s o * g o).
Proof.
  intros (Hp & H1 & Hm) Hs. unfold expect_round.
  rewrite (sumn_ext _ _ (fun a => pb a * c + (if Nat.eqb a s then pb s * sumn m (fun o => pr s o * g o) else 0))).
  - rewrite sumn_plus, sumn_scal_r, H1. rewrite (sumn_term K (fun a => if Nat.eqb a s then _ else 0) s); auto.
    + rewrite Nat.eqb_refl. ring.
    + intros i _ N. destruct (Nat.eqb_spec i s); [contradiction|auto].
  - intros a Ha. rewrite (sumn_ext m _ (fun o => pr a o * c + pr a o * (if Nat.eqb a s then g o else 0))) by (intros; ring).
    rewrite sumn_plus, sumn_scal_r, Hm by auto. destruct (Nat.eqb_spec a s) as [->|].
    + ring.
    + rewrite (sumn_zero m (fun o => pr a o * 0)) by (intros; ring). ring.
Qed.

(** For an evaluation policy that always takes action [s], the variance of DoublyRobust on a round is the expected
    'mrdr'-weighted squared error of the reward model plus the variance of the reward of [s]; so models with a smaller
    weighted error have a smaller variance, and the other way round. *)
Theorem C104_mrdr_is_variance : forall K m pb pr val f s,
  round_ok K m pb pr -> (s < K)%nat ->
  let pe := fun a => if Nat.eqb a s then 1 else 0 in
  exists D : nat -> nat -> R,
    (forall a o, (a < K)%nat -> dr_one_round K pb pe f a (val a o) = Ok (Fin (D a o))) /\
    expect_round K m pb pr D = mean_reward m pr val s /\
    expect_round K m pb pr (fun a o => (D a o - mean_reward m pr val s) * (D a o - mean_reward m pr val s)) =
    expect_round K m pb pr (fun a o => weight_of Mrdr (pe a) (pb a) * ((val a o - f a) * (val a o - f a))) +
    sumn m (fun o => pr s o * ((val s o - mean_reward m pr val s) * (val s o - mean_reward m pr val s))).
Proof.
  intros K m pb pr val f s Hr Hs pe. pose proof Hr as (Hp & H1 & Hm). pose proof (Hp s Hs) as Ps.
  assert (He : sumn K pe = 1).
  { rewrite (sumn_term K pe s); auto; unfold pe. rewrite Nat.eqb_refl; auto. intros i _ N. destruct (Nat.eqb_spec i s); [contradiction|auto]. }
  assert (Ef : sumn K (fun b => f b * pe b) = f s).
  { rewrite (sumn_term K _ s); auto; unfold pe. rewrite Nat.eqb_refl; ring. intros i _ N. destruct (Nat.eqb_spec i s); [contradiction|ring]. }
  set (q := mean_reward m pr val s).
  exists (fun a o => f s + (if Nat.eqb a s then (val s o - f s) / pb s else 0)).
  assert (S1 : sumn m (pr s) = 1) by (apply Hm; auto).
  assert (Su : sumn m (fun o => pr s o * (val s o - f s)) = q - f s).
  { rewrite (sumn_ext _ _ (fun o => pr s o * val s o - pr s o * f s)) by (intros; ring). rewrite sumn_minus, sumn_scal_r, S1. unfold q, mean_reward. ring. }
  set (m2 := sumn m (fun o => pr s o * ((val s o - f s) * (val s o - f s)))).
  assert (Sv : sumn m (fun o => pr s o * ((val s o - q) * (val s o - q))) = m2 - (q - f s) * (q - f s)).
  { rewrite (sumn_ext _ _ (fun o => pr s o * ((val s o - f s) * (val s o - f s)) + ((- 2 * (q - f s)) * (pr s o * (val s o - f s)) + (q - f s) * (q - f s) * pr s o))) by (intros; ring).
    rewrite !sumn_plus, !sumn_scal, Su, S1. fold m2. ring. }
  split; [|split].
  - intros a o Ha. rewrite dr_one_round_ok by auto. rewrite Ef. do 3 f_equal. unfold pe. destruct (Nat.eqb_spec a s) as [->|]; field; [lra|].
    apply Rgt_not_eq, Hp; auto.
  - rewrite (expect_split K m pb pr s (f s)) by auto.
    rewrite (sumn_ext _ _ (fun o => / pb s * (pr s o * (val s o - f s)))) by (intros; unfold Rdiv; ring). rewrite sumn_scal, Su. fold q. field. lra.
  - rewrite Sv.
    replace (expect_round K m pb pr (fun a o => weight_of Mrdr (pe a) (pb a) * ((val a o - f a) * (val a o - f a)))) with ((1 - pb s) / pb s * m2).
    + transitivity (expect_round K m pb pr (fun a o => (f s - q) * (f s - q) + (if Nat.eqb a s then 2 * (f s - q) * ((val s o - f s) / pb s) + (val s o - f s) / pb s * ((val s o - f s) / pb s) else 0))).
      * unfold expect_round. apply sumn_ext. intros a Ha. f_equal. apply sumn_ext. intros o Ho. f_equal. destruct (Nat.eqb a s); ring.
      * rewrite expect_split by auto.
        rewrite (sumn_ext _ _ (fun o => 2 * (f s - q) / pb s * (pr s o * (val s o - f s)) + / (pb s * pb s) * (pr s o * ((val s o - f s) * (val s o - f s))))) by (intros; field; lra).
        rewrite sumn_plus, !sumn_scal, Su. fold m2. field. lra.
    + symmetry. transitivity (expect_round K m pb pr (fun a o => 0 + (if Nat.eqb a s then (1 - pb s) / (pb s * pb s) * ((val s o - f s) * (val s o - f s)) else 0))).
      * unfold expect_round. apply sumn_ext. intros a Ha. f_equal. apply sumn_ext. intros o Ho. f_equal. unfold weight_of, pe.
        destruct (Nat.eqb_spec a s) as [->|]; field; [lra|]. apply Rgt_not_eq, Hp; auto.
      * rewrite expect_split by auto.
        rewrite (sumn_ext _ _ (fun o => (1 - pb s) / (pb s * pb s) * (pr s o * ((val s o - f s) * (val s o - f s))))) by (intros; ring).
        rewrite sumn_scal. fold m2. field. lra.
Qed.

(** For a stochastic evaluation policy this fails: with the policy equal to the logging policy, a model that is off by a
    constant still gives variance 0, but a positive weighted error. *)
Theorem C104_not_for_stochastic_policies : exists K m pb pr val pe f,
  round_ok K m pb pr /\ (forall a, (a < K)%nat -> 0 < pe a) /\ sumn K pe = 1 /\
  (forall a, (a < K)%nat -> mean_reward m pr val a = val a 0%nat) /\
  (forall a o, (a < K)%nat -> (o < m)%nat -> dr_one_round K pb pe f a (val a o) = Ok (Fin 0)) /\
  (forall a o, (a < K)%nat -> (o < m)%nat -> dr_one_round K pb pe (fun a => val a 0%nat) a (val a o) = Ok (Fin 0)) /\
  expect_round K m pb pr (fun a o => weight_of Mrdr (pe a) (pb a) * ((val a o - val a 0%nat) * (val a o - val a 0%nat))) <
  expect_round K m pb pr (fun a o => weight_of Mrdr (pe a) (pb a) * ((val a o - f a) * (val a o - f a))).
Proof.
  exists 2%nat, 1%nat, (fun _ => 1 / 2), (fun _ _ => 1), (fun a _ => if Nat.eqb a 0 then 1 else -1), (fun _ => 1 / 2), (fun a => if Nat.eqb a 0 then 2 else 0).
  assert (S2 : sumn 2 (fun _ : nat => 1 / 2) = 1) by (unfold sumn; simpl; lra).
  split; [|split; [|split; [|split; [|split; [|split]]]]].
  - split; [intros; lra|]. split; [auto|]. intros. unfold sumn. simpl. lra.
  - intros; lra.
  - auto.
  - intros a Ha. unfold mean_reward, sumn. cbn. lra.
  - intros a o Ha Ho. rewrite dr_one_round_ok by (auto; lra). do 2 f_equal. unfold sumn. cbn. destruct (Nat.eqb_spec a 0); field.
  - intros a o Ha Ho. rewrite dr_one_round_ok by (auto; lra). do 2 f_equal. unfold sumn. cbn. destruct (Nat.eqb_spec a 0); field.
  - unfold expect_round, weight_of, sumn. cbn. lra.
Qed.

(** The expected 'iw'-weighted squared error is the expected squared error when the evaluation policy acts. *)
Theorem C104_iw_is_evaluation_policy_error : forall K m pb pr val pe f, round_ok K m pb pr ->
  expect_round K m pb pr (fun a o => weight_of Iw (pe a) (pb a) * ((val a o - f a) * (val a o - f a))) =
  expect_round K m pe pr (fun a o => (val a o - f a) * (val a o - f a)).
Proof.
  intros K m pb pr val pe f (Hp & _ & _). unfold expect_round. apply sumn_ext. intros a Ha.
  rewrite (sumn_ext m _ (fun o => pe a / pb a * (pr a o * ((val a o - f a) * (val a o - f a))))) by (intros; unfold weight_of; ring).
  rewrite sumn_scal. field. apply Rgt_not_eq, Hp. auto.
Qed.

(** Two actions, rewards 0 or 1: the identity on numbers. *)
Example C104_ex : round_ok 2 2 (fun a => if Nat.eqb a 0 then 1 / 4 else 3 / 4) (fun _ o => if Nat.eqb o 0 then 1 / 3 else 2 / 3) /\
  expect_round 2 2 (fun a => if Nat.eqb a 0 then 1 / 4 else 3 / 4) (fun _ o => if Nat.eqb o 0 then 1 / 3 else 2 / 3)
    (fun a o => weight_of Mrdr (if Nat.eqb a 0 then 1 else 0) (if Nat.eqb a 0 then 1 / 4 else 3 / 4) * ((INR o - 1 / 2) * (INR o - 1 / 2))) = 3 / 4 /\
  sumn 2 (fun o => (if Nat.eqb o 0 then 1 / 3 else 2 / 3) * ((INR o - 2 / 3) * (INR o - 2 / 3))) = 2 / 9.
Proof.
  split; [|split].
  - split; [|split].
    + intros a _. destruct (Nat.eqb a 0); lra.
    + unfold sumn; simpl; lra.
    + intros. unfold sumn; simpl; lra.
  - unfold expect_round, weight_of, sumn. cbn. lra.
  - unfold sumn. cbn. lra.
Qed.

Print Assumptions C104_mrdr_is_variance.
Print Assumptions C104_not_for_stochastic_policies.
Print Assumptions C104_iw_is_evaluation_policy_error.
