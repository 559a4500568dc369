(** * S_Estimators: what the OPE estimators are supposed to compute, on a logged bandit data set
    given by plain functions of the round index.  No model code is used here. *)

From Coq Require Import Reals List ZArith.
From Verif Require Import Num S_Base.
Import ListNotations.
Open Scope R_scope.

(** A logged data set with [n] rounds, [K] actions and [L] positions. *)
Record blog := mkLog {
  lg_n : nat; lg_K : nat; lg_L : nat;
  lg_r : nat -> R;                    (* reward of round i *)
  lg_a : nat -> nat;                  (* logged action of round i *)
  lg_pos : nat -> nat;                (* position of round i *)
  lg_p : nat -> R;                    (* propensity of the logged action *)
  lg_pi : nat -> nat -> nat -> R;     (* evaluation policy: round, action, position *)
  lg_q : nat -> nat -> nat -> R       (* reward model: round, action, position *)
}.

(** The NumPy arrays a user passes. *)
Definition rewards (l : blog) := tabF (lg_n l) (lg_r l).
Definition actions (l : blog) := tabZ (lg_n l) (lg_a l).
Definition positions (l : blog) := tabZ (lg_n l) (lg_pos l).
Definition pscores (l : blog) := tabF (lg_n l) (lg_p l).
Definition policy (l : blog) := tab3F (lg_n l) (lg_K l) (lg_L l) (lg_pi l).
Definition model (l : blog) := tab3F (lg_n l) (lg_K l) (lg_L l) (lg_q l).

(** Tolerance with which np.allclose accepts a sum as 1. *)
Definition tol : R := 1 / 100000000 + 1 / 100000.

(** A log the library accepts: at least one round, indices in range, positive propensities, the
    evaluation policy sums to one up to the tolerance. *)
Record accepted (l : blog) : Prop := {
  acc_n : (0 < lg_n l)%nat;
  acc_a : forall i, (i < lg_n l)%nat -> (lg_a l i < lg_K l)%nat;
  acc_pos : forall i, (i < lg_n l)%nat -> (lg_pos l i < lg_L l)%nat;
  acc_p : forall i, (i < lg_n l)%nat -> 0 < lg_p l i;
  acc_pi : forall i s, (i < lg_n l)%nat -> (s < lg_L l)%nat ->
             Rabs (sumn (lg_K l) (fun a => lg_pi l i a s) - 1) <= tol
}.

(** The evaluation policy is a genuine probability distribution. *)
Record is_policy (l : blog) : Prop := {
  pol_nonneg : forall i a s, (i < lg_n l)%nat -> (a < lg_K l)%nat -> (s < lg_L l)%nat ->
                 0 <= lg_pi l i a s;
  pol_sum : forall i s, (i < lg_n l)%nat -> (s < lg_L l)%nat ->
                 sumn (lg_K l) (fun a => lg_pi l i a s) = 1
}.

(** The [position] argument: the position array, or None when there is a single position. *)
Definition position_arg (l : blog) (arg : option (list Z)) : Prop :=
  arg = Some (positions l) \/
  (arg = None /\ lg_L l = 1%nat /\ forall i, (i < lg_n l)%nat -> lg_pos l i = 0%nat).

(** The propensity arguments: the array in use is [lg_p]; the other one is irrelevant. *)
Definition pscore_arg (l : blog) (use_est : bool) (ps eps : option (list num)) : Prop :=
  (if use_est then eps else ps) = Some (pscores l).

(** Hyper-parameter: [None] is [np.inf]. *)
Definition lam_num (lam : option R) : num := match lam with Some x => Fin x | None => PInf end.

(** min(w, lambda) *)
Definition clip (lam : option R) (w : R) : R :=
  match lam with Some x => Rmin w x | None => w end.

(** Importance weight of round i. *)
Definition weight (l : blog) (i : nat) : R := lg_pi l i (lg_a l i) (lg_pos l i) / lg_p l i.

(** Reward model at the logged action / averaged under the evaluation policy. *)
Definition q_at (l : blog) (i : nat) : R := lg_q l i (lg_a l i) (lg_pos l i).
Definition q_pi (l : blog) (i : nat) : R :=
  sumn (lg_K l) (fun a => lg_q l i a (lg_pos l i) * lg_pi l i a (lg_pos l i))
  / sumn (lg_K l) (fun a => lg_pi l i a (lg_pos l i)).

Definition spec_ipw (lam : option R) (l : blog) : R :=
  avg (lg_n l) (fun i => lg_r l i * clip lam (weight l i)).
Definition spec_snipw (l : blog) : R :=
  sumn (lg_n l) (fun i => weight l i * lg_r l i) / sumn (lg_n l) (weight l).
Definition spec_dm (l : blog) : R := avg (lg_n l) (q_pi l).

(** DM plus the mean of weighted residuals, for an arbitrary weight transform [f]. *)
Definition spec_dr_with (f : R -> R) (l : blog) : R :=
  spec_dm l + avg (lg_n l) (fun i => f (weight l i) * (lg_r l i - q_at l i)).
Definition spec_dr (lam : option R) := spec_dr_with (clip lam).
Definition spec_sndr (l : blog) : R :=
  spec_dm l + sumn (lg_n l) (fun i => weight l i * (lg_r l i - q_at l i))
              / sumn (lg_n l) (weight l).
Definition spec_switch (lam : option R) :=
  spec_dr_with (fun w => match lam with
                         | Some x => if Rle_dec w x then w else 0
                         | None => w end).
Definition os_shrink (lam w : R) : R := lam * w / (w * w + lam).
Definition spec_dros (lam : R) := spec_dr_with (os_shrink lam).
Definition sg_shrink (lam w : R) : R := w / (1 - lam + lam * w).
Definition spec_sgipw (lam : R) (l : blog) : R :=
  avg (lg_n l) (fun i => lg_r l i * sg_shrink lam (weight l i)).
Definition spec_sgdr (lam : R) := spec_dr_with (sg_shrink lam).

(** Replay method: rounds whose logged action has evaluation probability exactly one. *)
Definition matched (l : blog) (i : nat) : R :=
  if Req_EM_T (lg_pi l i (lg_a l i) (lg_pos l i)) 1 then 1 else 0.
Definition spec_rm (l : blog) : R :=
  if Req_EM_T (sumn (lg_n l) (matched l)) 0 then 0
  else sumn (lg_n l) (fun i => matched l i * lg_r l i) / sumn (lg_n l) (matched l).

(** The log obtained by reordering rounds: round i of the new log is round [s i] of the old. *)
Definition reorder (s : nat -> nat) (l : blog) : blog :=
  mkLog (lg_n l) (lg_K l) (lg_L l)
        (fun i => lg_r l (s i)) (fun i => lg_a l (s i)) (fun i => lg_pos l (s i))
        (fun i => lg_p l (s i)) (fun i => lg_pi l (s i)) (fun i => lg_q l (s i)).
Definition is_reordering (n : nat) (s : nat -> nat) : Prop :=
  (forall i, (i < n)%nat -> (s i < n)%nat) /\
  (forall i j, (i < n)%nat -> (j < n)%nat -> s i = s j -> i = j).

(** Same log with every reward increased by [c] / every propensity multiplied by [c] / every
    model prediction increased by [c] / a given reward model. *)
Definition shift_rewards (c : R) (l : blog) : blog :=
  mkLog (lg_n l) (lg_K l) (lg_L l) (fun i => lg_r l i + c) (lg_a l) (lg_pos l) (lg_p l) (lg_pi l) (lg_q l).
Definition scale_pscores (c : R) (l : blog) : blog :=
  mkLog (lg_n l) (lg_K l) (lg_L l) (lg_r l) (lg_a l) (lg_pos l) (fun i => c * lg_p l i) (lg_pi l) (lg_q l).
Definition shift_model (c : R) (l : blog) : blog :=
  mkLog (lg_n l) (lg_K l) (lg_L l) (lg_r l) (lg_a l) (lg_pos l) (lg_p l) (lg_pi l)
        (fun i a s => lg_q l i a s + c).
Definition with_model (q : nat -> nat -> nat -> R) (l : blog) : blog :=
  mkLog (lg_n l) (lg_K l) (lg_L l) (lg_r l) (lg_a l) (lg_pos l) (lg_p l) (lg_pi l) q.

(** Self-normalised mean with given weights, clipped. *)
Definition spec_bipw (lam : option R) (w : nat -> R) (l : blog) : R :=
  sumn (lg_n l) (fun i => clip lam (w i) * lg_r l i) / sumn (lg_n l) (fun i => clip lam (w i)).
