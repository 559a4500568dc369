(** * M_Estimators: model of obp/ope/estimators.py and obp/ope/helper.py.

    Every estimator class is given by its [_estimate_round_rewards]; the public methods
    [estimate_policy_value] and [estimate_interval] are shared along the class hierarchy exactly as
    in the source (SNIPW, SG-IPW inherit IPW's; SNDR, Switch-DR, DRos, SG-DR inherit DR's). *)

From Coq Require Import Reals List ZArith Bool.
From Verif Require Import Num NpList M_Utils.
Import ListNotations.
Open Scope R_scope.

(** [action_dist[np.arange(n), action, position] / pscore] (e.g. estimators.py 334). *)
Definition importance_weights (action_dist : arr3) (action position : list Z) (pscore : arr1)
  : res arr1 :=
  pi <- fancy3 action_dist (arange (length action)) action position ;;
  bcast2 ndiv pi pscore.

(** [np.average(q_hat[np.arange(n), :, position], weights=action_dist[np.arange(n), :, position],
    axis=1)] (e.g. estimators.py 735-741, 986-993). *)
Definition dm_baseline (action_dist q_hat : arr3) (n : nat) (position : list Z) : res arr1 :=
  q_at <- fancy3_row q_hat (arange n) position ;;
  pi_at <- fancy3_row action_dist (arange n) position ;;
  np_average_axis1 q_at pi_at.

(** In-place [x += y]: y may be broadcast to x's shape but x may not grow. *)
(** Models: ope/estimators.py 994. *)
Definition iadd (x y : arr1) : res arr1 :=
  if (Nat.eqb (length y) (length x) || Nat.eqb (length y) 1)%bool
  then bcast2 nadd x y else Err ValueError.

(** Models: ope/estimators.py 105, 153, 331, 652, 731, 977. *)
Definition default_position (action_dist : arr3) (position : option (list Z)) : list Z :=
  match position with Some p => p | None => zzeros (length action_dist) end.

(** ** Round-wise rewards *)

(** estimators.py 73-114: [ReplayMethod._estimate_round_rewards]. *)
Definition rm_round (reward : arr1) (action : list Z) (action_dist : arr3) (position : list Z)
  : res arr1 :=
  pi <- fancy3 action_dist (arange (length action)) action position ;;
  let action_match := map (fun x => nbool (neqb x (Fin 1))) pi in
  if nlt (Fin 0) (nsum action_match)
  then mr <- bcast2 nmul action_match reward ;;
       Ok (map (fun x => ndiv x (nmean action_match)) mr)
  else Ok (map (fun _ => Fin 0) action_match).

(** estimators.py 295-338: [InverseProbabilityWeighting._estimate_round_rewards]. *)
Definition ipw_round (lam : num) (reward : arr1) (action : list Z) (pscore : arr1)
    (action_dist : arr3) (position : list Z) : res arr1 :=
  iw <- importance_weights action_dist action position pscore ;;
  let iw := map (fun w => nmin w lam) iw in
  bcast2 nmul reward iw.

(** estimators.py 616-656: [SelfNormalizedInverseProbabilityWeighting._estimate_round_rewards]
    (ignores lambda_). *)
Definition snipw_round (reward : arr1) (action : list Z) (pscore : arr1)
    (action_dist : arr3) (position : list Z) : res arr1 :=
  iw <- importance_weights action_dist action position pscore ;;
  rw <- bcast2 nmul reward iw ;;
  Ok (map (fun x => ndiv x (nmean iw)) rw).

(** estimators.py 703-741: [DirectMethod._estimate_round_rewards]. *)
Definition dm_round (action_dist q_hat : arr3) (position : list Z) : res arr1 :=
  dm_baseline action_dist q_hat (length position) position.

(** [q_hat[np.arange(n), action, position]] *)
(** Models: ope/estimators.py 987, 1346. *)
Definition q_factual (q_hat : arr3) (action position : list Z) : res arr1 :=
  fancy3 q_hat (arange (length action)) action position.

(** estimators.py 937-996: [DoublyRobust._estimate_round_rewards]. *)
Definition dr_round (lam : num) (reward : arr1) (action : list Z) (pscore : arr1)
    (action_dist q_hat : arr3) (position : list Z) : res arr1 :=
  iw <- importance_weights action_dist action position pscore ;;
  let iw := map (fun w => nmin w lam) iw in
  qf <- q_factual q_hat action position ;;
  est <- dm_baseline action_dist q_hat (length action) position ;;
  resid <- bcast2 nsub reward qf ;;
  corr <- bcast2 nmul iw resid ;;
  iadd est corr.

(** estimators.py 1303-1355: [SelfNormalizedDoublyRobust._estimate_round_rewards]. *)
Definition sndr_round (reward : arr1) (action : list Z) (pscore : arr1)
    (action_dist q_hat : arr3) (position : list Z) : res arr1 :=
  iw <- importance_weights action_dist action position pscore ;;
  qf <- q_factual q_hat action position ;;
  est <- dm_baseline action_dist q_hat (length action) position ;;
  resid <- bcast2 nsub reward qf ;;
  corr <- bcast2 nmul iw resid ;;
  iadd est (map (fun x => ndiv x (nmean iw)) corr).

(** estimators.py 1423-1476: [SwitchDoublyRobust._estimate_round_rewards]. *)
Definition switch_round (lam : num) (reward : arr1) (action : list Z) (pscore : arr1)
    (action_dist q_hat : arr3) (position : list Z) : res arr1 :=
  iw <- importance_weights action_dist action position pscore ;;
  let switch_indicator := map (fun w => nbool (nle w lam)) iw in
  qf <- q_factual q_hat action position ;;
  est <- dm_baseline action_dist q_hat (length action) position ;;
  siw <- bcast2 nmul switch_indicator iw ;;
  resid <- bcast2 nsub reward qf ;;
  corr <- bcast2 nmul siw resid ;;
  iadd est corr.

(** estimators.py 1670-1673: the optimistic-shrinkage weight. *)
Definition os_weight (lam w : num) : num :=
  if nlt lam PInf then ndiv (nmul lam w) (nadd (nsqr w) lam) else w.

(** estimators.py 1628-1685: [DoublyRobustWithShrinkage._estimate_round_rewards]. *)
Definition dros_round (lam : num) (reward : arr1) (action : list Z) (pscore : arr1)
    (action_dist q_hat : arr3) (position : list Z) : res arr1 :=
  iw <- importance_weights action_dist action position pscore ;;
  let iw_hat := map (os_weight lam) iw in
  qf <- q_factual q_hat action position ;;
  est <- dm_baseline action_dist q_hat (length action) position ;;
  resid <- bcast2 nsub reward qf ;;
  corr <- bcast2 nmul iw_hat resid ;;
  iadd est corr.

(** estimators.py 1871, 2060: [iw / (1 - lambda_ + lambda_ * iw)]. *)
Definition sg_weight (lam w : num) : num :=
  ndiv w (nadd (nsub (Fin 1) lam) (nmul lam w)).

(** estimators.py 1834-1874: [SubGaussianInverseProbabilityWeighting._estimate_round_rewards]. *)
Definition sgipw_round (lam : num) (reward : arr1) (action : list Z) (pscore : arr1)
    (action_dist : arr3) (position : list Z) : res arr1 :=
  iw <- importance_weights action_dist action position pscore ;;
  let iw_hat := map (sg_weight lam) iw in
  bcast2 nmul iw_hat reward.

(** estimators.py 2018-2072: [SubGaussianDoublyRobust._estimate_round_rewards]. *)
Definition sgdr_round (lam : num) (reward : arr1) (action : list Z) (pscore : arr1)
    (action_dist q_hat : arr3) (position : list Z) : res arr1 :=
  iw <- importance_weights action_dist action position pscore ;;
  let iw_hat := map (sg_weight lam) iw in
  qf <- q_factual q_hat action position ;;
  est <- dm_baseline action_dist q_hat (length action) position ;;
  resid <- bcast2 nsub reward qf ;;
  corr <- bcast2 nmul iw_hat resid ;;
  iadd est corr.

(** estimators.py 2221-2264: [BalancedInverseProbabilityWeighting._estimate_round_rewards]. *)
Definition bipw_round (lam : num) (reward eiw : arr1) : res arr1 :=
  let iw := map (fun w => nmin w lam) eiw in
  rw <- bcast2 nmul reward iw ;;
  Ok (map (fun x => ndiv x (nmean iw)) rw).

(** ** Public methods *)

(** estimators.py 384-389 etc.: which propensities are used; [check_array] rejects None. *)
Definition choose_pscore (use_est : bool) (pscore estimated_pscore : option arr1) : res arr1 :=
  match (if use_est then estimated_pscore else pscore) with
  | Some p => Ok p
  | None => Err ValueError
  end.

(** estimators.py 116-161: [ReplayMethod.estimate_policy_value]. *)
Definition rm_value (reward : arr1) (action : list Z) (action_dist : arr3)
    (position : option (list Z)) : res num :=
  check_ope_inputs action_dist position (Some action) (Some reward) None None None ;;;
  rr <- rm_round reward action action_dist (default_position action_dist position) ;;
  Ok (nmean rr).

(** estimators.py 340-407: [InverseProbabilityWeighting.estimate_policy_value], with the
    (overridable) [_estimate_round_rewards] as an argument; round rewards before [.mean()]. *)
Definition ipw_like_rounds
    (round : arr1 -> list Z -> arr1 -> arr3 -> list Z -> res arr1) (use_est : bool)
    (reward : arr1) (action : list Z) (action_dist : arr3) (pscore : option arr1)
    (position : option (list Z)) (estimated_pscore : option arr1) : res arr1 :=
  ps <- choose_pscore use_est pscore estimated_pscore ;;
  check_ope_inputs action_dist position (Some action) (Some reward) (Some ps) None None ;;;
  round reward action ps action_dist (default_position action_dist position).

Definition ipw_like_value round use_est reward action action_dist pscore position estimated_pscore
  : res num :=
  rr <- ipw_like_rounds round use_est reward action action_dist pscore position estimated_pscore ;;
  Ok (nmean rr).

(** estimators.py 409-494: [InverseProbabilityWeighting.estimate_interval]. *)
Definition ipw_like_interval round use_est reward action action_dist pscore position
    estimated_pscore (alpha : R) (n_boot : Z) (choice : nat -> nat -> nat) : res interval :=
  rr <- ipw_like_rounds round use_est reward action action_dist pscore position estimated_pscore ;;
  estimate_confidence_interval_by_bootstrap rr alpha n_boot choice.

Definition ipw_value (lam : num) := ipw_like_value (ipw_round lam).
Definition snipw_value := ipw_like_value snipw_round.
Definition sgipw_value (lam : num) := ipw_like_value (sgipw_round lam).

(** estimators.py 743-788: [DirectMethod.estimate_policy_value]. *)
Definition dm_value (action_dist q_hat : arr3) (position : option (list Z)) : res num :=
  check_ope_inputs action_dist position None None None (Some q_hat) None ;;;
  rr <- dm_round action_dist q_hat (default_position action_dist position) ;;
  Ok (nmean rr).

(** estimators.py 998-1075: [DoublyRobust.estimate_policy_value], same convention. *)
Definition dr_like_rounds
    (round : arr1 -> list Z -> arr1 -> arr3 -> arr3 -> list Z -> res arr1) (use_est : bool)
    (reward : arr1) (action : list Z) (action_dist q_hat : arr3) (pscore : option arr1)
    (position : option (list Z)) (estimated_pscore : option arr1) : res arr1 :=
  ps <- choose_pscore use_est pscore estimated_pscore ;;
  check_ope_inputs action_dist position (Some action) (Some reward) (Some ps) (Some q_hat) None ;;;
  round reward action ps action_dist q_hat (default_position action_dist position).

Definition dr_like_value round use_est reward action action_dist q_hat pscore position
    estimated_pscore : res num :=
  rr <- dr_like_rounds round use_est reward action action_dist q_hat pscore position
          estimated_pscore ;;
  Ok (nmean rr).

(** estimators.py 1077-1172: [DoublyRobust.estimate_interval]. *)
Definition dr_like_interval round use_est reward action action_dist q_hat pscore position
    estimated_pscore (alpha : R) (n_boot : Z) (choice : nat -> nat -> nat) : res interval :=
  rr <- dr_like_rounds round use_est reward action action_dist q_hat pscore position
          estimated_pscore ;;
  estimate_confidence_interval_by_bootstrap rr alpha n_boot choice.

Definition dr_value (lam : num) := dr_like_value (dr_round lam).
Definition sndr_value := dr_like_value sndr_round.
Definition switch_value (lam : num) := dr_like_value (switch_round lam).
Definition dros_value (lam : num) := dr_like_value (dros_round lam).
Definition sgdr_value (lam : num) := dr_like_value (sgdr_round lam).

(** estimators.py 2266-2324: [BalancedInverseProbabilityWeighting.estimate_policy_value]. *)
Definition bipw_value (lam : num) (reward : arr1) (action : list Z) (action_dist : arr3)
    (eiw : arr1) (position : option (list Z)) : res num :=
  check_ope_inputs action_dist position (Some action) (Some reward) None None (Some eiw) ;;;
  rr <- bipw_round lam reward eiw ;;
  Ok (nmean rr).

(** estimators.py 163-226: [ReplayMethod.estimate_interval]. *)
Definition rm_interval (reward : arr1) (action : list Z) (action_dist : arr3)
    (position : option (list Z)) (alpha : R) (n_boot : Z) (choice : nat -> nat -> nat) : res interval :=
  check_ope_inputs action_dist position (Some action) (Some reward) None None None ;;;
  rr <- rm_round reward action action_dist (default_position action_dist position) ;;
  estimate_confidence_interval_by_bootstrap rr alpha n_boot choice.

(** estimators.py 790-853: [DirectMethod.estimate_interval]. *)
Definition dm_interval (action_dist q_hat : arr3) (position : option (list Z))
    (alpha : R) (n_boot : Z) (choice : nat -> nat -> nat) : res interval :=
  check_ope_inputs action_dist position None None None (Some q_hat) None ;;;
  rr <- dm_round action_dist q_hat (default_position action_dist position) ;;
  estimate_confidence_interval_by_bootstrap rr alpha n_boot choice.

(** estimators.py 2326-2403: [BalancedInverseProbabilityWeighting.estimate_interval]. *)
Definition bipw_interval (lam : num) (reward : arr1) (action : list Z) (action_dist : arr3)
    (eiw : arr1) (position : option (list Z)) (alpha : R) (n_boot : Z) (choice : nat -> nat -> nat)
  : res interval :=
  check_ope_inputs action_dist position (Some action) (Some reward) None None (Some eiw) ;;;
  rr <- bipw_round lam reward eiw ;;
  estimate_confidence_interval_by_bootstrap rr alpha n_boot choice.

(** ** helper.py *)

(** helper.py 14-57: [estimate_bias_in_ope]; [q_hat = None] becomes zeros. *)
Definition estimate_bias_in_ope (reward iw iw_hat : arr1) (q_hat : option arr1) : res num :=
  let q := match q_hat with Some q => q | None => map (fun _ => Fin 0) reward end in
  d <- bcast2 nsub iw iw_hat ;;
  r <- bcast2 nsub reward q ;;
  arr <- bcast2 nmul d r ;;
  Ok (nabs (nmean arr)).

(** helper.py 60-116: [estimate_high_probability_upper_bound_bias].  [2 / delta] is Python
    float division: ZeroDivisionError for delta = 0. *)
Definition estimate_high_probability_upper_bound_bias (reward iw iw_hat : arr1)
    (q_hat : option arr1) (delta : R) : res num :=
  check_scalar (Fin delta) (Some (Fin 0)) (Some (Fin 1)) ;;;
  bias <- estimate_bias_in_ope reward iw iw_hat q_hat ;;
  let n := nnat (length reward) in
  raise_if (Reqb delta 0) ZeroDivisionError ;;;
  let lg := nlog (Fin (2 / delta)) in
  let b1 := nadd bias (nsqrt (ndiv (nmul (nmul (Fin 2) (nmean (map nsqr iw))) lg) n)) in
  mx <- nmaxl iw ;;
  Ok (nadd b1 (ndiv (nmul (nmul (Fin 2) mx) lg) (nmul (Fin 3) n))).

(** helper.py 119-158: [estimate_hoeffding_lower_bound]. *)
Definition estimate_hoeffding_lower_bound (x : arr1) (x_max : option R) (delta : R) : res num :=
  xm <- (match x_max with
         | None => nmaxl x
         | Some m => mx <- nmaxl x ;; check_scalar (Fin m) (Some mx) None ;;; Ok (Fin m)
         end) ;;
  check_scalar (Fin delta) (Some (Fin 0)) (Some (Fin 1)) ;;;
  raise_if (Reqb delta 0) ZeroDivisionError ;;;
  let n := nnat (length x) in
  let ci := nmul xm (nsqrt (ndiv (nlog (Fin (1 / delta))) (nmul (Fin 2) n))) in
  Ok (nsub (nmean x) ci).

(** helper.py 161-201: [estimate_bernstein_lower_bound].  [7 * x_max * log(2/delta)] is a NumPy
    scalar, so dividing by [3 * (n - 1) = 0] gives inf, and [var(x) / (n-1)] gives NaN or inf. *)
Definition estimate_bernstein_lower_bound (x : arr1) (x_max : option R) (delta : R) : res num :=
  xm <- (match x_max with
         | None => nmaxl x
         | Some m => mx <- nmaxl x ;; check_scalar (Fin m) (Some mx) None ;;; Ok (Fin m)
         end) ;;
  check_scalar (Fin delta) (Some (Fin 0)) (Some (Fin 1)) ;;;
  raise_if (Reqb delta 0) ZeroDivisionError ;;;
  let n1 := Fin (INR (length x) - 1) in
  let lg := nlog (Fin (2 / delta)) in
  let ci1 := ndiv (nmul (nmul (Fin 7) xm) lg) (nmul (Fin 3) n1) in
  let ci2 := nsqrt (ndiv (nmul (nmul (Fin 2) lg) (nvar x)) n1) in
  Ok (nsub (nsub (nmean x) ci1) ci2).

(** helper.py 204-234: [estimate_student_t_lower_bound]; [ppf] is scipy's Student-t quantile
    function at 1 - delta with n-1 degrees of freedom, an argument. *)
Definition estimate_student_t_lower_bound (ppf : nat -> R -> num) (x : arr1) (delta : R) : res num :=
  check_scalar (Fin delta) (Some (Fin 0)) (Some (Fin 1)) ;;;
  let n1 := Fin (INR (length x) - 1) in
  let ci := nmul (nsqrt (ndiv (nvar x) n1)) (ppf (length x - 1)%nat (1 - delta)) in
  Ok (nsub (nmean x) ci).

(** ** Estimated MSE (tuning criterion)

    estimators.py 496-571 (IPW), 1174-1258 (DR), 1478-1562 (Switch-DR), 1687-1774 (DRos),
    1876-1956 (SG-IPW), 2074-2158 (SG-DR): var(round rewards)/n + bias^2, where the bias term
    compares the raw weights with the transformed ones. *)
Definition mse_from (rr : res arr1) (reward iw iw_hat : arr1) (qf : option arr1)
    (use_bound : bool) (delta : R) : res num :=
  rr <- rr ;;
  let sv := ndiv (nvar rr) (nnat (length reward)) in
  b <- (if use_bound
        then estimate_high_probability_upper_bound_bias reward iw iw_hat qf delta
        else estimate_bias_in_ope reward iw iw_hat qf) ;;
  Ok (nadd sv (nsqr b)).

Definition ipw_mse (lam : num) (reward : arr1) (action : list Z) (pscore : arr1)
    (action_dist : arr3) (position : list Z) (use_bound : bool) (delta : R) : res num :=
  iw <- importance_weights action_dist action position pscore ;;
  mse_from (ipw_round lam reward action pscore action_dist position)
           reward iw (map (fun w => nmin w lam) iw) None use_bound delta.

Definition sgipw_mse (lam : num) (reward : arr1) (action : list Z) (pscore : arr1)
    (action_dist : arr3) (position : list Z) (use_bound : bool) (delta : R) : res num :=
  iw <- importance_weights action_dist action position pscore ;;
  mse_from (sgipw_round lam reward action pscore action_dist position)
           reward iw (map (sg_weight lam) iw) None use_bound delta.

Definition dr_like_mse (round : arr1 -> list Z -> arr1 -> arr3 -> arr3 -> list Z -> res arr1)
    (transform : num -> num) (reward : arr1) (action : list Z) (pscore : arr1)
    (action_dist q_hat : arr3) (position : list Z) (use_bound : bool) (delta : R) : res num :=
  iw <- importance_weights action_dist action position pscore ;;
  qf <- q_factual q_hat action position ;;
  mse_from (round reward action pscore action_dist q_hat position)
           reward iw (map transform iw) (Some qf) use_bound delta.

Definition dr_mse (lam : num) := dr_like_mse (dr_round lam) (fun w => nmin w lam).
Definition switch_mse (lam : num) :=
  dr_like_mse (switch_round lam) (fun w => nmul w (nbool (nle w lam))).
Definition dros_mse (lam : num) := dr_like_mse (dros_round lam) (os_weight lam).
Definition sgdr_mse (lam : num) := dr_like_mse (sgdr_round lam) (sg_weight lam).
