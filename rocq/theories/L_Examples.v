(** * L_Examples: the concrete inputs of S_Examples satisfy the general hypotheses. *)

From Coq Require Import Reals List ZArith Lia Lra.
From Verif Require Import Num S_Base S_Prob S_Estimators S_Env S_Examples L_Num.
Import ListNotations.
Open Scope R_scope.

(** Case split on all indices below small bounds. *)
Ltac small :=
  repeat match goal with
  | H : (?i < ?n)%nat |- _ => is_var i; destruct i; [clear H | try (exfalso; simpl in H; lia)]
  end; simpl in *; try lia; try lra.
Ltac idx i := destruct i as [|i]; [ | destruct i as [|i]; [ | destruct i as [|i]; [ | destruct i as [|i]]]].
Ltac rabs := unfold Rabs, tol; match goal with |- context [Rcase_abs ?x] => destruct (Rcase_abs x) end; lra.

Lemma ex_log_accepted : accepted ex_log.
Proof.
  constructor; simpl; intros; try lia.
  - idx i; simpl; lia.
  - idx i; simpl; lia.
  - idx i; simpl; try lia; lra.
  - rabs.
Qed.
Lemma ex_log_policy : is_policy ex_log.
Proof.
  constructor; simpl; intros.
  - idx a; simpl; try lia; lra.
  - lra.
Qed.
Lemma ex_log_pos : position_arg ex_log (Some (positions ex_log)).
Proof. left; reflexivity. Qed.

Lemma ex_det_accepted : accepted ex_det.
Proof.
  constructor; simpl; intros; try lia.
  - idx i; simpl; lia.
  - idx i; simpl; try lia; lra.
  - rabs.
Qed.
Lemma ex_det_policy : is_policy ex_det.
Proof.
  constructor; simpl; intros.
  - idx a; simpl; try lia; lra.
  - lra.
Qed.
Lemma ex_det_pos : position_arg ex_det None.
Proof. right; repeat split; reflexivity. Qed.

Lemma ex_nomass_accepted : accepted ex_nomass.
Proof.
  constructor; simpl; intros; try lia.
  - idx i; simpl; try lia; lra.
  - rabs.
Qed.
Lemma ex_nomass_pos : position_arg ex_nomass None.
Proof. right; repeat split; reflexivity. Qed.

Lemma ex_env_ok : env_ok ex_env.
Proof.
  constructor; simpl; intros; try lia.
  - split; [|simpl; lra]. simpl; intros a p [E|[E|[]]]; injection E as <- <-; lra.
  - destruct x; idx a; simpl; try lia; lra.
  - destruct x; simpl; lra.
  - destruct x; idx a; simpl; try lia; lra.
  - destruct x; simpl; lra.
  - split.
    + destruct x; simpl; intros b p [E|[E|[]]]; injection E as <- <-; try lra;
      idx a; simpl; lra.
    + destruct x; simpl; lra.
Qed.
Lemma ex_env_support : common_support ex_env.
Proof. intros x a s; simpl. destruct x; idx a; simpl; intros; try lra; lia. Qed.
Lemma ex_env_pos pt qh o : position_arg (log_of ex_env pt qh o) None.
Proof. right; repeat split; reflexivity. Qed.
