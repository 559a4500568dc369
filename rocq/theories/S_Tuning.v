(** * S_Tuning: what hyper-parameter tuning and the helper bounds are supposed to compute. *)

From Coq Require Import Reals List ZArith.
From Verif Require Import Num S_Base S_Estimators M_Tuning.
Import ListNotations.
Open Scope R_scope.

(** Population variance. *)
Definition variance (n : nat) (f : nat -> R) : R := avg n (fun i => (f i - avg n f) * (f i - avg n f)).

(** [m] is the largest of [f 0 .. f (n-1)]. *)
Definition is_max (n : nat) (f : nat -> R) (m : R) : Prop :=
  (exists i, (i < n)%nat /\ f i = m) /\ forall i, (i < n)%nat -> f i <= m.

(** How a hyper-parameter modifies an importance weight: clipping, switching, optimistic
    shrinkage, sub-Gaussian shrinkage. *)
Inductive modifier := Clipping | Switching | Shrinkage | SubGaussian.
Definition modified (m : modifier) (lam : option R) (w : R) : R :=
  match m, lam with
  | Clipping, _ => clip lam w
  | _, None => w
  | Switching, Some x => if Rle_dec w x then w else 0
  | Shrinkage, Some x => x * w / (w * w + x)
  | SubGaussian, Some x => w / (1 - x + x * w)
  end.

(** Which modification each tuning class searches over, and whether it uses a reward model. *)
Definition kind_modifier (t : tuned) : modifier :=
  match t with
  | T_IPW | T_DR => Clipping | T_Switch => Switching | T_DRos => Shrinkage
  | T_SGIPW | T_SGDR => SubGaussian
  end.
Definition uses_model (t : tuned) : bool :=
  match t with T_DR | T_Switch | T_DRos | T_SGDR => true | T_IPW | T_SGIPW => false end.

(** Hyper-parameters for which the modified weights are ordinary numbers for every log. *)
Definition regular (m : modifier) (lam : option R) : Prop :=
  match m, lam with
  | Shrinkage, Some x => 0 < x
  | SubGaussian, Some x => 0 <= x < 1
  | SubGaussian, None => False
  | _, _ => True
  end.

(** Contribution of round i, with ([dr = true]) or without a reward model. *)
Definition residual (dr : bool) (l : blog) (i : nat) : R :=
  if dr then lg_r l i - q_at l i else lg_r l i.
Definition contribution (dr : bool) (m : modifier) (lam : option R) (l : blog) (i : nat) : R :=
  (if dr then q_pi l i else 0) + modified m lam (weight l i) * residual dr l i.
Definition spec_bias (dr : bool) (m : modifier) (lam : option R) (l : blog) : R :=
  Rabs (avg (lg_n l) (fun i => (weight l i - modified m lam (weight l i)) * residual dr l i)).
Definition sampling_variance (dr : bool) (m : modifier) (lam : option R) (l : blog) : R :=
  variance (lg_n l) (contribution dr m lam l) / INR (lg_n l).
(** Deviation terms of the high-probability bias bound. *)
Definition spec_deviation (l : blog) (wmax delta : R) : R :=
  sqrt (2 * avg (lg_n l) (fun i => weight l i * weight l i) * ln (2 / delta) / INR (lg_n l))
  + 2 * wmax * ln (2 / delta) / (3 * INR (lg_n l)).

(** A valid answer of np.argsort: a permutation of the positions along which the values are
    non-decreasing, NaN last; ties may come in any order. *)
Definition before_ok (x y : num) : Prop := y = NaN \/ nle x y = true.
Definition is_argsort (xs : list num) (idx : list nat) : Prop :=
  NoDup idx /\ length idx = length xs /\
  (forall i, In i idx -> (i < length xs)%nat) /\
  (forall j k, (j < k < length idx)%nat ->
     before_ok (nth (nth j idx 0%nat) xs NaN) (nth (nth k idx 0%nat) xs NaN)).

(** Value of the estimator at a hyper-parameter. *)
Definition spec_value (dr : bool) (m : modifier) (lam : option R) (l : blog) : R :=
  avg (lg_n l) (contribution dr m lam l).

(** Estimated MSE: sampling variance plus squared bias (or its high-probability upper bound). *)
Definition spec_score (dr : bool) (m : modifier) (bound : bool) (delta wmax : R) (l : blog) (lam : option R) : R :=
  let b := spec_bias dr m lam l + (if bound then spec_deviation l wmax delta else 0) in
  sampling_variance dr m lam l + b * b.

(** Half-width of the Student-t interval at a hyper-parameter; [T] is the t quantile. *)
Definition spec_width (dr : bool) (m : modifier) (T : R) (l : blog) (lam : option R) : R :=
  sqrt (variance (lg_n l) (contribution dr m lam l) / (INR (lg_n l) - 1)) * T.

(** Keyword arguments a user passes for the log [l]. *)
Definition tuning_call (l : blog) (ps : option (list num)) (arg : option (list Z)) (eps : option (list num)) : tinput :=
  mkTinput (rewards l) (actions l) (policy l) (Some (model l)) ps arg eps.

(** The two sub-Gaussian tuning classes cannot be used with estimated propensities. *)
Definition supports (t : tuned) (use_est : bool) : Prop :=
  match t with T_SGIPW | T_SGDR => use_est = false | _ => True end.

(** [a] is at least as large as [b]; [None] is infinity. *)
Definition lam_ge (a b : option R) : Prop :=
  match a, b with None, _ => True | Some x, Some y => y <= x | Some _, None => False end.

(** Which of two equally good hyper-parameters is preferred: the least shrinkage for clipping
    and switching, the smallest value for the others. *)
Definition preferred (m : modifier) (a b : option R) : Prop :=
  match m with Clipping | Switching => lam_ge a b | _ => lam_ge b a end.

(** SLOPE: [later] is compatible with the previously visited [earlier]. *)
Definition slope_ok {A} (theta c : A -> R) (earlier later : A) : Prop :=
  Rabs (theta earlier - theta later) <= c later + (sqrt 6 - 1) * c earlier.
(** [lam] is the last candidate, in the order of visit, before the first one that is
    incompatible with some candidate visited before it (the last of all if there is none). *)
Definition slope_choice {A} (theta c : A -> R) (visit : list A) (lam : A) : Prop :=
  exists pre post, visit = pre ++ lam :: post /\
    ForallOrdPairs (slope_ok theta c) (pre ++ [lam]) /\
    match post with
    | [] => True
    | next :: _ => exists j, In j (pre ++ [lam]) /\ ~ slope_ok theta c j next
    end.

(** Conditions under which the selection step is defined on the log [l]: for the MSE criterion
    with the high-probability bound, delta must be positive; for SLOPE there must be two rounds
    and a finite Student-t quantile, and np.argsort must sort. *)
Definition tunable (argsort : list num -> list nat) (ppf : nat -> R -> num)
    (m : tmethod) (bound : bool) (delta : R) (l : blog) : Prop :=
  match m with
  | Mse => bound = true -> 0 < delta
  | Slope => (1 < lg_n l)%nat /\ (exists T, ppf (lg_n l - 1)%nat (1 - delta) = Fin T) /\
             forall xs, is_argsort xs (argsort xs)
  end.

(** One call in a history: the log and the optional arguments passed with it. *)
Record call := mkCall { c_log : blog; c_ps : option (list num); c_arg : option (list Z); c_eps : option (list num) }.
Definition good_call (use_est : bool) (c : call) : Prop :=
  accepted (c_log c) /\ is_policy (c_log c) /\ position_arg (c_log c) (c_arg c) /\
  pscore_arg (c_log c) use_est (c_ps c) (c_eps c).
Definition call_input (c : call) : tinput := tuning_call (c_log c) (c_ps c) (c_arg c) (c_eps c).
