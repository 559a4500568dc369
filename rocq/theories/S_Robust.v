(** * S_Robust: bias of estimators given wrong propensities. *)

From Coq Require Import Reals List.
From Verif Require Import Num S_Base S_Prob S_Estimators S_Env.
Open Scope R_scope.

(** Relative error of the propensity [pt] of an action; 1 for an action that is never logged. *)
Definition propensity_error {X} (e : benv X) (pt : X -> nat -> nat -> R) (x : X) (s a : nat) : R :=
  if Req_EM_T (ev_pb e x s a) 0 then 1 else 1 - ev_pb e x s a / pt x s a.
(** Error of the prediction [qh]. *)
Definition model_error {X} (e : benv X) (qh : X -> nat -> nat -> R) (x : X) (s a : nat) : R := qh x a s - q_true e x s a.

(** Average of [f] over the contexts and the actions of the evaluation policy. *)
Definition under_policy {X} (e : benv X) (f : X -> nat -> nat -> R) : R :=
  avg (ev_n e) (fun i => expect (ev_ctx e i) (fun x => sumn (ev_K e) (fun a => let s := ev_pos e i in ev_pe e x a s * f x s a))).

(** The propensities are positive where actions are logged. *)
Definition usable {X} (e : benv X) (pt : X -> nat -> nat -> R) : Prop :=
  forall x s a, (a < ev_K e)%nat -> 0 < ev_pb e x s a -> 0 < pt x s a.
