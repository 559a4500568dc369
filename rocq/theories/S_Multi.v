(** * S_Multi: what the multi-logger estimators are supposed to compute.  No model code is used. *)

From Coq Require Import Reals List ZArith.
From Verif Require Import Num S_Base S_Prob S_Estimators S_Env.
Import ListNotations.
Open Scope R_scope.

(** Round [i] was collected by logger [g i]; the label array a user passes. *)
Definition labels (l : blog) (g : nat -> nat) : list Z := tabZ (lg_n l) g.

(** The labels are exactly [0 .. S-1], each used at least once. *)
Definition contiguous (n : nat) (g : nat -> nat) (S : nat) : Prop :=
  (forall i, (i < n)%nat -> (g i < S)%nat) /\
  (forall k, (k < S)%nat -> exists i, (i < n)%nat /\ g i = k).

(** Some label below the largest one is missing. *)
Definition has_gap (n : nat) (g : nat -> nat) : Prop :=
  exists k i, (i < n)%nat /\ (k < g i)%nat /\ forall j, (j < n)%nat -> g j <> k.

(** Number of rounds, sum, mean and variance of [z] within stratum [k]. *)
Definition member (g : nat -> nat) (k i : nat) : R := if Nat.eq_dec (g i) k then 1 else 0.
Definition st_size (n : nat) (g : nat -> nat) (k : nat) : R := sumn n (member g k).
Definition st_sum (n : nat) (g : nat -> nat) (z : nat -> R) (k : nat) : R :=
  sumn n (fun i => member g k i * z i).
Definition st_mean n g z k : R := st_sum n g z k / st_size n g k.
Definition st_var (n : nat) (g : nat -> nat) (z : nat -> R) (k : nat) : R :=
  st_sum n g (fun i => (z i - st_mean n g z k) * (z i - st_mean n g z k)) k / st_size n g k.

(** Average of [y] with rounds of stratum [k] weighted by the inverse of the variance that [z] has
    in that stratum. *)
Definition inverse_variance_average (n S : nat) (g : nat -> nat) (z y : nat -> R) : R :=
  sumn S (fun k => st_sum n g y k / st_var n g z k)
  / sumn S (fun k => st_size n g k / st_var n g z k).

(** Round-wise IPW and DR contributions. *)
Definition ipw_term (lam : option R) (l : blog) (i : nat) : R := lg_r l i * clip lam (weight l i).
Definition dr_corr (lam : option R) (l : blog) (i : nat) : R :=
  clip lam (weight l i) * (lg_r l i - q_at l i).
Definition dr_term (lam : option R) (l : blog) (i : nat) : R := q_pi l i + dr_corr lam l i.

(** The weight the paper gives to stratum [k]: n / (var_k * sum_j n_j / var_j). *)
Definition paper_weight (n S : nat) (g : nat -> nat) (z : nat -> R) (k : nat) : R :=
  INR n / (st_var n g z k * sumn S (fun j => st_size n g j / st_var n g z j)).

(** ** Data collected by several loggers

    [me_n] rounds; round [i] is collected by logger [me_g i]; contexts are identically distributed. *)
Record menv (X : Type) := mkMEnv {
  me_n : nat; me_K : nat; me_L : nat; me_S : nat;
  me_s : nat;                               (* the position *)
  me_g : nat -> nat;                        (* logger of round i *)
  me_ctx : dist X;
  me_pb : nat -> X -> nat -> nat -> R;      (* logger, context, position, action *)
  me_pe : X -> nat -> nat -> R;             (* evaluation policy: context, action, position *)
  me_rd : X -> nat -> nat -> dist R         (* reward: context, position, action *)
}.
Arguments mkMEnv {X}. Arguments me_n {X}. Arguments me_K {X}. Arguments me_L {X}.
Arguments me_S {X}. Arguments me_s {X}. Arguments me_g {X}. Arguments me_ctx {X}.
Arguments me_pb {X}. Arguments me_pe {X}. Arguments me_rd {X}.

Record menv_ok {X : Type} (m : menv X) : Prop := {
  mo_n : (0 < me_n m)%nat;
  mo_s : (me_s m < me_L m)%nat;
  mo_g : forall i, (i < me_n m)%nat -> (me_g m i < me_S m)%nat;
  mo_ctx : is_dist (me_ctx m);
  mo_pb0 : forall k x s a, (a < me_K m)%nat -> 0 <= me_pb m k x s a;
  mo_pb1 : forall k x s, sumn (me_K m) (me_pb m k x s) = 1;
  mo_pe0 : forall x a s, (a < me_K m)%nat -> 0 <= me_pe m x a s;
  mo_pe1 : forall x s, sumn (me_K m) (fun a => me_pe m x a s) = 1;
  mo_rd : forall x s a, is_dist (me_rd m x s a)
}.

(** The same process as a single-logger process whose context carries the logger's label. *)
Definition env_of {X : Type} (m : menv X) : benv (X * nat) := {|
  ev_n := me_n m; ev_K := me_K m; ev_L := me_L m; ev_pos := fun _ => me_s m;
  ev_ctx := fun i => dmap (fun x => (x, me_g m i)) (me_ctx m);
  ev_pb := fun xk s a => me_pb m (snd xk) (fst xk) s a;
  ev_pe := fun xk a s => me_pe m (fst xk) a s;
  ev_rd := fun xk s a => me_rd m (fst xk) s a |}.

(** Value of the evaluation policy. *)
Definition me_value {X : Type} (m : menv X) : R :=
  expect (me_ctx m) (fun x => sumn (me_K m) (fun a =>
    me_pe m x a (me_s m) * expect (me_rd m x (me_s m) a) (fun r => r))).

(** [pscore_avg]: the loggers' propensities averaged with the shares of the strata. *)
Definition share {X : Type} (m : menv X) (k : nat) : R := st_size (me_n m) (me_g m) k / INR (me_n m).
Definition avg_pscore {X : Type} (m : menv X) (xk : X * nat) (s a : nat) : R :=
  sumn (me_S m) (fun k => share m k * me_pb m k (fst xk) s a).
Definition own_pscore {X : Type} (m : menv X) (xk : X * nat) (s a : nat) : R :=
  me_pb m (snd xk) (fst xk) s a.

(** Every action the evaluation policy may take is possible for at least one logger / for every
    logger that collected data. *)
Definition pooled_support {X : Type} (m : menv X) : Prop :=
  forall x a, (a < me_K m)%nat -> 0 < me_pe m x a (me_s m) ->
    exists i, (i < me_n m)%nat /\ 0 < me_pb m (me_g m i) x (me_s m) a.
Definition full_support {X : Type} (m : menv X) : Prop :=
  forall x a i, (i < me_n m)%nat -> (a < me_K m)%nat -> 0 < me_pe m x a (me_s m) ->
    0 < me_pb m (me_g m i) x (me_s m) a.
