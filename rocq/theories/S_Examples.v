(** * S_Examples: concrete, non-trivial inputs used to show that the theorems' hypotheses can be met. *)

From Coq Require Import Reals List ZArith.
From Verif Require Import Num S_Base S_Prob S_Estimators S_Env.
Import ListNotations.
Open Scope R_scope.

(** Three rounds, two actions, two positions. *)
Definition ex_log : blog := {|
  lg_n := 3; lg_K := 2; lg_L := 2;
  lg_r := fun i => nth i [1; 0; 2] 0;
  lg_a := fun i => nth i [0; 1; 1]%nat 0%nat;
  lg_pos := fun i => nth i [0; 1; 0]%nat 0%nat;
  lg_p := fun i => nth i [1/2; 1/4; 1/2] 1;
  lg_pi := fun i a s => nth a [1/4; 3/4] 0;
  lg_q := fun i a s => nth a [1/2; 1] 0 + INR s |}.

(** A deterministic evaluation policy (always action 0) that agrees with the log only once. *)
Definition ex_det : blog := {|
  lg_n := 3; lg_K := 2; lg_L := 1;
  lg_r := fun i => nth i [1; 0; 2] 0;
  lg_a := fun i => nth i [0; 1; 1]%nat 0%nat;
  lg_pos := fun _ => 0%nat;
  lg_p := fun i => nth i [1/2; 1/4; 1/2] 1;
  lg_pi := fun i a s => nth a [1; 0] 0;
  lg_q := fun i a s => nth a [1/2; 1] 0 |}.

(** A log whose actions have no evaluation probability. *)
Definition ex_nomass : blog := {|
  lg_n := 2; lg_K := 2; lg_L := 1;
  lg_r := fun i => nth i [1; 3] 0;
  lg_a := fun i => 1%nat;
  lg_pos := fun _ => 0%nat;
  lg_p := fun i => nth i [1/2; 1/4] 1;
  lg_pi := fun i a s => nth a [1; 0] 0;
  lg_q := fun i a s => nth a [1/2; 1] 0 |}.

(** Two rounds, contexts {true,false}, two actions, Bernoulli rewards.  In context [false]
    the behaviour policy never plays action 1, and neither does the evaluation policy. *)
Definition ex_env : benv bool := {|
  ev_n := 2; ev_K := 2; ev_L := 1; ev_pos := fun _ => 0%nat;
  ev_ctx := fun _ => [(true, 1/3); (false, 2/3)];
  ev_pb := fun x _ a => if x then nth a [1/4; 3/4] 0 else nth a [1; 0] 0;
  ev_pe := fun x a _ => if x then nth a [1/2; 1/2] 0 else nth a [1; 0] 0;
  ev_rd := fun x _ a => if x then [(1, 1/2); (0, 1/2)] else [(1, nth a [1/3; 2/3] 0); (0, 1 - nth a [1/3; 2/3] 0)] |}.

(** One action; [ex_t1] has unit weights, [ex_t2] has weights 10. *)
Definition ex_t1 : blog := {|
  lg_n := 2; lg_K := 1; lg_L := 1;
  lg_r := fun i => nth i [1; 2] 0; lg_a := fun _ => 0%nat; lg_pos := fun _ => 0%nat;
  lg_p := fun _ => 1; lg_pi := fun _ _ _ => 1; lg_q := fun _ _ _ => 0 |}.
Definition ex_t2 : blog := {|
  lg_n := 2; lg_K := 1; lg_L := 1;
  lg_r := fun i => nth i [1; -1] 0; lg_a := fun _ => 0%nat; lg_pos := fun _ => 0%nat;
  lg_p := fun _ => 1 / 10; lg_pi := fun _ _ _ => 1; lg_q := fun _ _ _ => 0 |}.
