(** * L_Act: the activation functions are 1-Lipschitz. *)

From Coq Require Import Reals List ZArith Lia Lra.
From Coquelicot Require Import Coquelicot.
From Verif Require Import Num M_Init M_NN L_Num.
Open Scope R_scope.

Ltac rcase := repeat match goal with |- context [Rltb ?x ?y] =>
  let E := fresh "E" in destruct (Rltb x y) eqn:E; [apply Rltb_true in E|apply Rltb_false in E] end.

Lemma lipschitz_of_derivative (f f' : R -> R) : (forall x, is_derive f x (f' x)) -> (forall x, 0 <= f' x <= 1) ->
  forall x y, Rabs (f x - f y) <= Rabs (x - y).
Proof.
  intros Hd Hb.
  assert (Hlt : forall a b, a < b -> Rabs (f b - f a) <= Rabs (b - a)).
  { intros a b Hab. destruct (MVT_cor2 f f' a b Hab) as (c & E & _); [intros; apply is_derive_Reals, Hd|]. rewrite E, Rabs_mult.
    pose proof (Rabs_pos (b - a)). rewrite (Rabs_pos_eq (f' c)) by apply Hb. specialize (Hb c). nra. }
  intros x y. destruct (Rtotal_order x y) as [H|[->|H]].
  - rewrite Rabs_minus_sym, (Rabs_minus_sym x y). auto.
  - rewrite !Rminus_diag_eq by reflexivity. lra.
  - auto.
Qed.

Lemma unit_frac a b : 0 <= a -> 0 < b -> a <= b -> 0 <= a / b <= 1.
Proof.
  intros. split. apply Rmult_le_pos; [lra|]. left. apply Rinv_0_lt_compat; lra.
  apply (Rmult_le_reg_r b); [lra|]. unfold Rdiv. rewrite Rmult_assoc, Rinv_l by lra. lra.
Qed.

Lemma act_lipschitz a x y : Rabs (act_fun a x - act_fun a y) <= Rabs (x - y).
Proof.
  destruct a.
  - simpl. lra.
  - apply (lipschitz_of_derivative (act_fun ALogistic) (fun x => exp (- x) / ((1 + exp (- x)) * (1 + exp (- x))))).
    + intros t. change (is_derive (fun x => 1 / (1 + exp (- x))) t (exp (- t) / ((1 + exp (- t)) * (1 + exp (- t))))).
      pose proof (exp_pos (- t)). auto_derive; [lra|]. field. lra.
    + intros t. pose proof (exp_pos (- t)). apply unit_frac; try lra; nra.
  - apply (lipschitz_of_derivative (act_fun ATanh) (fun x => 4 / ((exp x + exp (- x)) * (exp x + exp (- x))))).
    + intros t. change (is_derive (fun x => (exp x - exp (- x)) / (exp x + exp (- x))) t (4 / ((exp t + exp (- t)) * (exp t + exp (- t))))).
      pose proof (exp_pos (- t)). pose proof (exp_pos t).
      assert (exp t * exp (- t) = 1) by (rewrite <- exp_plus, Rplus_opp_r; apply exp_0).
      auto_derive; [lra|]. apply (Rmult_eq_reg_r ((exp t + exp (- t)) * (exp t + exp (- t)))); [|nra].
      field_simplify; [|nra|nra]. nra.
    + intros t. pose proof (exp_pos (- t)). pose proof (exp_pos t).
      assert (exp t * exp (- t) = 1) by (rewrite <- exp_plus, Rplus_opp_r; apply exp_0). apply unit_frac; try lra; try nra.
      assert (0 <= (exp t - exp (- t)) * (exp t - exp (- t))) by apply Rle_0_sqr. nra.
  - simpl. rcase; unfold Rabs; repeat destruct (Rcase_abs _); lra.
  - (* x -> exp x - 1 is 1-Lipschitz on the negative half-line *)
    assert (He : forall a b, a <= b -> b <= 0 -> exp a <= exp b /\ exp b - exp a <= b - a).
    { intros a b Hab Hb. destruct (Req_dec a b) as [->|Hne]; [lra|].
      destruct (MVT_cor2 exp exp a b ltac:(lra)) as (c & E & Hc); [intros; apply derivable_pt_lim_exp|].
      assert (exp c <= 1) by (rewrite <- exp_0; left; apply exp_increasing; lra). pose proof (exp_pos c). split; nra. }
    assert (Hle : forall a b, a <= b -> 0 <= act_fun AElu b - act_fun AElu a <= b - a).
    { intros a b Hab. simpl. rcase; try lra.
      - destruct (He a 0) as [H1 H2]; try lra. rewrite exp_0 in *. lra.
      - destruct (He a b) as [H1 H2]; lra. }
    destruct (Rle_lt_dec x y) as [H|H].
    + rewrite Rabs_minus_sym, (Rabs_minus_sym x y). specialize (Hle x y H). rewrite !Rabs_pos_eq by lra. lra.
    + specialize (Hle y x ltac:(lra)). rewrite !Rabs_pos_eq by lra. lra.
Qed.
