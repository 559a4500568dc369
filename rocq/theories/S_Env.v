(** * S_Env: the data-generating process of logged bandit feedback.

    Contexts are drawn independently round by round, the action from the behaviour policy given the
    context, the reward from a finite-support distribution given context and action.  [X] is the
    (arbitrary) set of contexts. *)

From Coq Require Import Reals List ZArith.
From Verif Require Import Num S_Base S_Prob S_Estimators.
Import ListNotations.
Open Scope R_scope.

Record benv (X : Type) := mkEnv {
  ev_n : nat; ev_K : nat; ev_L : nat;
  ev_pos : nat -> nat;                       (* position presented in round i *)
  ev_ctx : nat -> dist X;                    (* context distribution of round i *)
  ev_pb : X -> nat -> nat -> R;              (* behaviour policy: context, position, action *)
  ev_pe : X -> nat -> nat -> R;              (* evaluation policy: context, action, position *)
  ev_rd : X -> nat -> nat -> dist R          (* reward distribution: context, position, action *)
}.
Arguments mkEnv {X}. Arguments ev_n {X}. Arguments ev_K {X}. Arguments ev_L {X}.
Arguments ev_pos {X}. Arguments ev_ctx {X}. Arguments ev_pb {X}. Arguments ev_pe {X}.
Arguments ev_rd {X}.

Record env_ok {X : Type} (e : benv X) : Prop := {
  eo_n : (0 < ev_n e)%nat;
  eo_pos : forall i, (i < ev_n e)%nat -> (ev_pos e i < ev_L e)%nat;
  eo_ctx : forall i, (i < ev_n e)%nat -> is_dist (ev_ctx e i);
  eo_pb0 : forall x s a, (a < ev_K e)%nat -> 0 <= ev_pb e x s a;
  eo_pb1 : forall x s, sumn (ev_K e) (ev_pb e x s) = 1;
  eo_pe0 : forall x a s, (a < ev_K e)%nat -> 0 <= ev_pe e x a s;
  eo_pe1 : forall x s, sumn (ev_K e) (fun a => ev_pe e x a s) = 1;
  eo_rd : forall x s a, is_dist (ev_rd e x s a)
}.

(** Every action the evaluation policy may take can be taken by the behaviour policy. *)
Definition common_support {X} (e : benv X) : Prop :=
  forall x a s, (a < ev_K e)%nat -> 0 < ev_pe e x a s -> 0 < ev_pb e x s a.

(** One logged round: context, action, reward. *)
Definition round_dist {X} (e : benv X) (i : nat) : dist (X * nat * R) :=
  dbind (ev_ctx e i) (fun x =>
  dbind (dtab (ev_K e) (ev_pb e x (ev_pos e i))) (fun a =>
  dmap (fun r => (x, a, r)) (ev_rd e x (ev_pos e i) a))).

(** The distribution of the whole log: [n] independent rounds. *)
Definition log_dist {X} (e : benv X) : dist (list (X * nat * R)) := dprod (ev_n e) (round_dist e).

(** True mean reward, and the value of the evaluation policy. *)
Definition q_true {X} (e : benv X) (x : X) (s a : nat) : R := expect (ev_rd e x s a) (fun r => r).
Definition policy_value {X} (e : benv X) : R :=
  avg (ev_n e) (fun i => expect (ev_ctx e i) (fun x =>
    sumn (ev_K e) (fun a => ev_pe e x a (ev_pos e i) * q_true e x (ev_pos e i) a))).

(** What the user passes to the library for the outcome [o]: the propensity table [pt] is looked up
    at the logged action ([pt = ev_pb e] when propensities are correct), [qh] is the reward model. *)
Definition log_of {X} (e : benv X) (pt : X -> nat -> nat -> R) (qh : X -> nat -> nat -> R)
    (o : list (X * nat * R)) : blog :=
  {| lg_n := ev_n e; lg_K := ev_K e; lg_L := ev_L e;
     lg_r := fun i => match nth_error o i with Some (_, _, r) => r | None => 0 end;
     lg_a := fun i => match nth_error o i with Some (_, a, _) => a | None => 0%nat end;
     lg_pos := ev_pos e;
     lg_p := fun i => match nth_error o i with Some (x, a, _) => pt x (ev_pos e i) a | None => 0 end;
     lg_pi := fun i a s => match nth_error o i with Some (x, _, _) => ev_pe e x a s | None => 0 end;
     lg_q := fun i a s => match nth_error o i with Some (x, _, _) => qh x a s | None => 0 end |}.
