(** * M_Tuning: model of obp/ope/estimators_tuning.py. *)

From Coq Require Import Reals List ZArith Bool.
From Verif Require Import Num NpList M_Utils M_Estimators.
Import ListNotations.
Open Scope R_scope.

(** The six tuning classes: estimators_tuning.py 374, 580, 801, 1021, 1240, 1446. *)
Inductive tuned := T_IPW | T_DR | T_Switch | T_DRos | T_SGIPW | T_SGDR.

Definition needs_model (t : tuned) : bool :=
  match t with T_IPW | T_SGIPW => false | _ => true end.

(** Keyword arguments of [estimate_policy_value]; [None] is Python's None / not given. *)
(** Models: ope/estimators_tuning.py 191-262 (keyword arguments). *)
Record tinput := mkTinput {
  ti_reward : arr1; ti_action : list Z; ti_dist : arr3; ti_q : option arr3;
  ti_ps : option arr1; ti_pos : option (list Z); ti_eps : option arr1 }.

(** [base_ope_estimator(lambda_)._estimate_round_rewards(...)] and [._estimate_mse_score(...)].
    DR-type estimators receive the reward model that the public method has already required
    to be an array (the [None] branch is never reached from there). *)
(** Models: ope/estimators_tuning.py 156. *)
Definition base_round (t : tuned) (lam : num) (reward : arr1) (action : list Z) (ps : arr1)
    (dist : arr3) (q : option arr3) (pos : list Z) : res arr1 :=
  match t, q with
  | T_IPW, _ => ipw_round lam reward action ps dist pos
  | T_SGIPW, _ => sgipw_round lam reward action ps dist pos
  | T_DR, Some q => dr_round lam reward action ps dist q pos
  | T_Switch, Some q => switch_round lam reward action ps dist q pos
  | T_DRos, Some q => dros_round lam reward action ps dist q pos
  | T_SGDR, Some q => sgdr_round lam reward action ps dist q pos
  | _, None => Err TypeError
  end.

(** Models: ope/estimators_tuning.py 128. *)
Definition base_mse (t : tuned) (lam : num) (reward : arr1) (action : list Z) (ps : arr1)
    (dist : arr3) (q : option arr3) (pos : list Z) (use_bound : bool) (delta : R) : res num :=
  match t, q with
  | T_IPW, _ => ipw_mse lam reward action ps dist pos use_bound delta
  | T_SGIPW, _ => sgipw_mse lam reward action ps dist pos use_bound delta
  | T_DR, Some q => dr_mse lam reward action ps dist q pos use_bound delta
  | T_Switch, Some q => switch_mse lam reward action ps dist q pos use_bound delta
  | T_DRos, Some q => dros_mse lam reward action ps dist q pos use_bound delta
  | T_SGDR, Some q => sgdr_mse lam reward action ps dist q pos use_bound delta
  | _, None => Err TypeError
  end.

(** [base_ope_estimator(lambda_=..., use_estimated_pscore=...).estimate_policy_value(...)]. *)
(** Models: ope/estimators_tuning.py 263-273. *)
Definition base_value (t : tuned) (lam : num) (use_est : bool) (i : tinput) : res num :=
  match t, ti_q i with
  | T_IPW, _ => ipw_value lam use_est (ti_reward i) (ti_action i) (ti_dist i) (ti_ps i) (ti_pos i) (ti_eps i)
  | T_SGIPW, _ => sgipw_value lam use_est (ti_reward i) (ti_action i) (ti_dist i) (ti_ps i) (ti_pos i) (ti_eps i)
  | T_DR, Some q => dr_value lam use_est (ti_reward i) (ti_action i) (ti_dist i) q (ti_ps i) (ti_pos i) (ti_eps i)
  | T_Switch, Some q => switch_value lam use_est (ti_reward i) (ti_action i) (ti_dist i) q (ti_ps i) (ti_pos i) (ti_eps i)
  | T_DRos, Some q => dros_value lam use_est (ti_reward i) (ti_action i) (ti_dist i) q (ti_ps i) (ti_pos i) (ti_eps i)
  | T_SGDR, Some q => sgdr_value lam use_est (ti_reward i) (ti_action i) (ti_dist i) q (ti_ps i) (ti_pos i) (ti_eps i)
  | _, None => Err ValueError
  end.

(** [base_ope_estimator(best).estimate_interval(...)] (360-371: [use_estimated_pscore] is not
    passed on, so it is False here, and [pscore] is the array chosen before). *)
Definition base_interval (t : tuned) (lam : num) (i : tinput) (alpha : R) (n_boot : Z)
    (choice : nat -> nat -> nat) : res interval :=
  match t, ti_q i with
  | T_IPW, _ => ipw_like_interval (ipw_round lam) false (ti_reward i) (ti_action i) (ti_dist i) (ti_ps i) (ti_pos i) (ti_eps i) alpha n_boot choice
  | T_SGIPW, _ => ipw_like_interval (sgipw_round lam) false (ti_reward i) (ti_action i) (ti_dist i) (ti_ps i) (ti_pos i) (ti_eps i) alpha n_boot choice
  | T_DR, Some q => dr_like_interval (dr_round lam) false (ti_reward i) (ti_action i) (ti_dist i) q (ti_ps i) (ti_pos i) (ti_eps i) alpha n_boot choice
  | T_Switch, Some q => dr_like_interval (switch_round lam) false (ti_reward i) (ti_action i) (ti_dist i) q (ti_ps i) (ti_pos i) (ti_eps i) alpha n_boot choice
  | T_DRos, Some q => dr_like_interval (dros_round lam) false (ti_reward i) (ti_action i) (ti_dist i) q (ti_ps i) (ti_pos i) (ti_eps i) alpha n_boot choice
  | T_SGDR, Some q => dr_like_interval (sgdr_round lam) false (ti_reward i) (ti_action i) (ti_dist i) q (ti_ps i) (ti_pos i) (ti_eps i) alpha n_boot choice
  | _, None => Err ValueError
  end.

(** [list.sort()] / [list.sort(reverse=True)] on floats that are not NaN (equal elements are
    identical, so stability is invisible). *)
(** Models: ope/estimators_tuning.py 422, 622, 842, 1062, 1291, 1490. *)
Fixpoint ninsert (le : num -> num -> bool) (x : num) (l : list num) : list num :=
  match l with
  | [] => [x]
  | y :: r => if le x y then x :: y :: r else y :: ninsert le x r
  end.
(** Models: ope/estimators_tuning.py 422, 622, 842, 1062, 1291, 1490. *)
Definition nsort (le : num -> num -> bool) (l : list num) : list num := fold_right (ninsert le) [] l.

(** The object: its constructor arguments, and the attribute [best_hyperparam] (absent at first). *)
(** Models: ope/estimators_tuning.py 98-114. *)
Inductive tmethod := Slope | Mse.
(** Models: ope/estimators_tuning.py 69-78, 243. *)
Record tuner := mkTuner {
  tn_kind : tuned; tn_lambdas : list num; tn_method : tmethod; tn_bound : bool;
  tn_delta : R; tn_use_est : bool; tn_best : option num }.

(** estimators_tuning.py 80-96, 98-114 and the [__post_init__] of each class (417-422, 617-622, 837-842, 1057-1062,
    1286-1291, 1485-1490): candidates must be a non-empty list of non-NaN values in [0, max_val];
    the list is sorted, descending for IPW, DR and Switch-DR, ascending for the others. *)
Definition check_lambdas (max_val : num) (lams : list num) : res unit :=
  match lams with
  | [] => Err ValueError
  | _ => mapM (fun h => check_scalar h (Some (Fin 0)) (Some max_val) ;;;
                        raise_if (negb (neqb h h)) ValueError) lams ;;; Ok tt
  end.

Definition sort_lambdas (t : tuned) (lams : list num) : list num :=
  match t with
  | T_IPW | T_DR | T_Switch => nsort (fun x y => nle y x) lams
  | T_DRos | T_SGIPW | T_SGDR => nsort nle lams
  end.

Definition make_tuner (t : tuned) (lams : list num) (m : tmethod) (bound : bool) (delta : R)
    (use_est : bool) : res tuner :=
  check_lambdas (match t with T_SGIPW | T_SGDR => Fin 1 | _ => PInf end) lams ;;;
  check_scalar (Fin delta) (Some (Fin 0)) (Some (Fin 1)) ;;;
  Ok (mkTuner t (sort_lambdas t lams) m bound delta use_est None).

(** 140: [dict[k] = v]: overwrite in place, or append. *)
Fixpoint dict_set {V : Type} (d : list (num * V)) (k : num) (v : V) : list (num * V) :=
  match d with
  | [] => [(k, v)]
  | (k', v') :: r => if neqb k' k then (k', v) :: r else (k', v') :: dict_set r k v
  end.

(** 141: [min(items, key=score)]: the first item unless a later one is strictly smaller. *)
Definition min_item (items : list (num * num)) : res num :=
  match items with
  | [] => Err ValueError
  | x :: r => Ok (fst (fold_left (fun best y => if nlt (snd y) (snd best) then y else best) r x))
  end.

(** estimators_tuning.py 116-141: [_tune_hyperparam_with_mse] (with the dictionary it stores). *)
Definition tune_mse (o : tuner) (reward : arr1) (action : list Z) (ps : arr1) (dist : arr3)
    (q : option arr3) (pos : list Z) : res num :=
  d <- fold_left (fun acc h =>
         d <- acc ;;
         s <- base_mse (tn_kind o) h reward action ps dist q pos (tn_bound o) (tn_delta o) ;;
         Ok (dict_set d h s)) (tn_lambdas o) (Ok []) ;;
  min_item d.

(** estimators_tuning.py 176-189: the SLOPE loop over the remaining sorted indices; [prev] is [sorted_idx_list[i-1]],
    [acc] the (theta, cnf) pairs accepted so far. *)
Definition slope_compatible (theta_i cnf_i : num) (acc : list (num * num)) : bool :=
  forallb (fun tc => nle (nabs (nsub (fst tc) theta_i))
                         (nadd cnf_i (nmul (Fin (sqrt 6 - 1)) (snd tc)))) acc.
Fixpoint slope_loop (tc : list (num * num)) (prev : nat) (acc : list (num * num)) (idx : list nat) : nat :=
  match idx with
  | [] => prev
  | i :: rest =>
      let '(theta_i, cnf_i) := nth i tc (NaN, NaN) in
      if slope_compatible theta_i cnf_i acc
      then slope_loop tc i (acc ++ [(theta_i, cnf_i)]) rest
      else prev
  end.

(** estimators_tuning.py 143-189: [_tune_hyperparam_with_slope].  [argsort] is np.argsort (its choice among ties is
    unspecified, so it is an argument); [ppf] is the Student-t quantile function.  The loop's
    first iteration always accepts ([all()] of an empty array), as in 179-180. *)
Definition tune_slope (argsort : list num -> list nat) (ppf : nat -> R -> num)
    (o : tuner) (reward : arr1) (action : list Z) (ps : arr1) (dist : arr3)
    (q : option arr3) (pos : list Z) : res num :=
  tc <- mapM (fun h =>
          rr <- base_round (tn_kind o) h reward action ps dist q pos ;;
          lb <- estimate_student_t_lower_bound ppf rr (tn_delta o) ;;
          Ok (nmean rr, nsub (nmean rr) lb)) (tn_lambdas o) ;;
  match rev (argsort (map snd tc)) with
  | [] => Err IndexError
  | first :: rest =>
      let best := slope_loop tc first [nth first tc (NaN, NaN)] rest in
      np_get (tn_lambdas o) (Z.of_nat best)
  end.

Definition tune (argsort : list num -> list nat) (ppf : nat -> R -> num) (o : tuner)
    (reward : arr1) (action : list Z) (ps : arr1) (dist : arr3) (q : option arr3) (pos : list Z) : res num :=
  match tn_method o with
  | Mse => tune_mse o reward action ps dist q pos
  | Slope => tune_slope argsort ppf o reward action ps dist q pos
  end.

Definition set_best (o : tuner) (h : num) : tuner :=
  mkTuner (tn_kind o) (tn_lambdas o) (tn_method o) (tn_bound o) (tn_delta o) (tn_use_est o) (Some h).

(** estimators_tuning.py 236-261 (333-358): choose the propensities and tune unless [best_hyperparam] exists. *)
Definition ensure_tuned (argsort : list num -> list nat) (ppf : nat -> R -> num) (o : tuner)
    (i : tinput) (pos : list Z) : res (tuner * num * arr1) :=
  ps <- choose_pscore (tn_use_est o) (ti_ps i) (ti_eps i) ;;
  match tn_best o with
  | Some h => Ok (o, h, ps)
  | None =>
      h <- tune argsort ppf o (ti_reward i) (ti_action i) ps (ti_dist i) (ti_q i) pos ;;
      Ok (set_best o h, h, ps)
  end.

(** Models: ope/estimators_tuning.py, the public methods' own checks 466-482, 670-692, 890-912, 1110-1132, 1335-1351, 1538-1560
    ([estimate_policy_value]) and 548-566, 762-786, 982-1006, 1202-1226, 1415-1433, 1629-1653 ([estimate_interval]), then [estimate_policy_value_with_tuning] (191-273).  The IPW-type classes ignore a reward model.
    T_SGIPW and T_SGDR (1353-1359, 1562-1569) do not pass [estimated_pscore] on. *)
Definition public_check (o : tuner) (i : tinput) : res (arr1 * option arr3) :=
  q <- (if needs_model (tn_kind o)
        then match ti_q i with Some q => Ok (Some q) | None => Err ValueError end
        else Ok None) ;;
  ps <- choose_pscore (tn_use_est o) (ti_ps i) (ti_eps i) ;;
  check_ope_inputs (ti_dist i) (ti_pos i) (Some (ti_action i)) (Some (ti_reward i)) (Some ps) q None ;;;
  Ok (ps, q).

(** Models: ope/estimators_tuning.py 483-491, 693-702, 913-922, 1133-1142 (passed on) and 1353-1359, 1562-1569 (not passed on). *)
Definition forwards_estimated_pscore (t : tuned) : bool :=
  match t with T_SGIPW | T_SGDR => false | _ => true end.

(** Models: ope/estimators_tuning.py 481-491, 691-702, 911-922, 1131-1142, 1350-1359, 1559-1569 and 565-576, 785-797, 1005-1017, 1225-1237,
    1432-1442, 1652-1663 (arguments of the base class method). *)
Definition inner_input (o : tuner) (i : tinput) (ps : arr1) (q : option arr3) : tinput :=
  mkTinput (ti_reward i) (ti_action i) (ti_dist i) q (Some ps)
           (Some (default_position (ti_dist i) (ti_pos i)))
           (if forwards_estimated_pscore (tn_kind o) then ti_eps i else None).

(** [estimate_policy_value] of a tuning object: result and the object afterwards. *)
(** Models: ope/estimators_tuning.py 191-273. *)
Definition tuner_value (argsort : list num -> list nat) (ppf : nat -> R -> num) (o : tuner)
    (i : tinput) : tuner * res num :=
  match public_check o i with
  | Err e => (o, Err e)
  | Ok (ps, q) =>
      let j := inner_input o i ps q in
      match ensure_tuned argsort ppf o j (default_position (ti_dist i) (ti_pos i)) with
      | Err e => (o, Err e)
      | Ok (o', h, ps') =>
          (o', base_value (tn_kind o) h (tn_use_est o)
                 (mkTinput (ti_reward j) (ti_action j) (ti_dist j) (ti_q j) (Some ps') (ti_pos j) (ti_eps j)))
      end
  end.

(** [estimate_interval] of a tuning object. *)
(** Models: ope/estimators_tuning.py 493-576, 704-797, 924-1017, 1144-1237, 1361-1442, 1571-1663 and 275-371. *)
Definition tuner_interval (argsort : list num -> list nat) (ppf : nat -> R -> num) (o : tuner)
    (i : tinput) (alpha : R) (n_boot : Z) (choice : nat -> nat -> nat) : tuner * res interval :=
  match public_check o i with
  | Err e => (o, Err e)
  | Ok (ps, q) =>
      let j := inner_input o i ps q in
      match ensure_tuned argsort ppf o j (default_position (ti_dist i) (ti_pos i)) with
      | Err e => (o, Err e)
      | Ok (o', h, ps') =>
          (o', base_interval (tn_kind o) h
                 (mkTinput (ti_reward j) (ti_action j) (ti_dist j) (ti_q j) (Some ps') (ti_pos j) (ti_eps j))
                 alpha n_boot choice)
      end
  end.

(** A history of calls on one object. *)
(** Models: repeated calls of ope/estimators_tuning.py 191-273. *)
Fixpoint tuner_run (argsort : list num -> list nat) (ppf : nat -> R -> num) (o : tuner)
    (calls : list tinput) : list (res num) :=
  match calls with
  | [] => []
  | i :: rest => let '(o', r) := tuner_value argsort ppf o i in r :: tuner_run argsort ppf o' rest
  end.
