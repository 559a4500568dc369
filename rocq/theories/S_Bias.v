(** * S_Bias: bias of estimators whose importance weights are modified by a hyper-parameter. *)

From Coq Require Import Reals List Bool.
From Verif Require Import Num NpList S_Base S_Prob S_Estimators S_Env S_Tuning.
Open Scope R_scope.

(** What the reward model leaves unexplained ([dr = true]); the whole expected reward without a model. *)
Definition unexplained {X} (e : benv X) (dr : bool) (qh : X -> nat -> nat -> R) (x : X) (s a : nat) : R :=
  q_true e x s a - (if dr then qh x a s else 0).

(** True importance weight of an action. *)
Definition true_weight {X} (e : benv X) (x : X) (s a : nat) : R := ev_pe e x a s / ev_pb e x s a.

(** Value lost to the modification: the weight taken away times the unexplained reward, averaged over the logged actions. *)
Definition lost_value {X} (e : benv X) (dr : bool) (qh : X -> nat -> nat -> R) (m : modifier) (lam : option R) : R :=
  avg (ev_n e) (fun i => expect (ev_ctx e i) (fun x => sumn (ev_K e) (fun a => let s := ev_pos e i in
    ev_pb e x s a * (true_weight e x s a - modified m lam (true_weight e x s a)) * unexplained e dr qh x s a))).

(** Average absolute change of the weights. *)
Definition weight_change {X} (e : benv X) (m : modifier) (lam : option R) : R :=
  avg (ev_n e) (fun i => expect (ev_ctx e i) (fun x => sumn (ev_K e) (fun a => let s := ev_pos e i in
    ev_pb e x s a * Rabs (true_weight e x s a - modified m lam (true_weight e x s a))))).

(** The importance weights of the environment are at most [W]. *)
Definition weights_at_most {X} (e : benv X) (W : R) : Prop :=
  forall x s a, (a < ev_K e)%nat -> 0 < ev_pb e x s a -> true_weight e x s a <= W.

(** What one logged round (context, action, reward) contributes to the estimate and to the reported bias. *)
Definition round_value {X} (e : benv X) (dr : bool) (qh : X -> nat -> nat -> R) (m : modifier) (lam : option R) (i : nat) (y : X * nat * R) : R :=
  let '(x, a, r) := y in let s := ev_pos e i in
  (if dr then sumn (ev_K e) (fun b => qh x b s * ev_pe e x b s) else 0)
  + modified m lam (true_weight e x s a) * (r - (if dr then qh x a s else 0)).
Definition round_loss {X} (e : benv X) (dr : bool) (qh : X -> nat -> nat -> R) (m : modifier) (lam : option R) (i : nat) (y : X * nat * R) : R :=
  let '(x, a, r) := y in let s := ev_pos e i in
  (true_weight e x s a - modified m lam (true_weight e x s a)) * (r - (if dr then qh x a s else 0)).

(** Mean and variance of a quantity of round [i]. *)
Definition round_mean {X} (e : benv X) (f : nat -> X * nat * R -> R) (i : nat) : R := expect (round_dist e i) (f i).
Definition round_var {X} (e : benv X) (f : nat -> X * nat * R -> R) (i : nat) : R :=
  expect (round_dist e i) (fun y => (f i y - round_mean e f i) * (f i y - round_mean e f i)).

(** Hyper-parameters that never change a weight by more than the weight itself. *)
Definition shrinking (m : modifier) (lam : option R) : Prop :=
  match m, lam with
  | Clipping, Some x => 0 <= x
  | Shrinkage, Some x => 0 < x
  | SubGaussian, Some x => 0 <= x <= 1/2
  | SubGaussian, None => False
  | _, _ => True
  end.

(** Second moment of the importance weights under the logging policy. *)
Definition weight_moment {X} (e : benv X) : R :=
  avg (ev_n e) (fun i => expect (ev_ctx e i) (fun x => sumn (ev_K e) (fun a => let s := ev_pos e i in
    ev_pb e x s a * (true_weight e x s a * true_weight e x s a)))).

(** The logged weights are at least as spread out as the population: mean square and maximum. *)
Definition representative {X} (e : benv X) (W : R) (l : blog) : bool :=
  (if Rle_dec (weight_moment e) (avg (lg_n l) (fun i => weight l i * weight l i)) then true else false)
  && List.existsb (fun i => if Rle_dec W (weight l i) then true else false) (List.seq 0 (lg_n l)).

(** A call that was to return an upper bound of [b] returned less, or no number. *)
Definition under_reported (r : res num) (b : R) : bool :=
  match r with Ok (Fin v) => if Rlt_dec v b then true else false | _ => true end.
