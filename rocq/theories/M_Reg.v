(** * M_Reg: model of obp/ope/regression_model.py, obp/ope/classification_model.py,
    obp/ope/regression_model_slate.py and [QLearner.fit] (obp/policy/offline.py).

    The scikit-learn estimators are arguments: a type [M] of estimator objects, a [fit] that turns an object
    into its state after the call (it may look at the state it is called in, as warm-starting estimators do)
    and a prediction function.  Either may raise.  Array ranks and integer dtypes are carried by the types.  The
    state an object is left in by a call that raises is not modelled. *)

From Coq Require Import Reals List ZArith Bool.
From Verif Require Import Num NpList M_Utils M_Slate M_Multi M_Feedback M_Offline.
Import ListNotations.
Open Scope R_scope.

(** [x[idx]] with an integer index array. *)
(** Models: ope/regression_model.py 320-330. *)
Definition take {A : Type} (x : list A) (idx : list nat) : res (list A) := mapM (fun i => np_get x (Z.of_nat i)) idx.

(** [x[idx] = v] with an integer index array and as many values (ValueError for another number of values; numpy
    would accept a single value for several indices, which no caller passes). *)
(** Models: ope/regression_model.py 330. *)
Definition put {A : Type} (x : list A) (idx : list nat) (v : list A) : res (list A) :=
  if Nat.eqb (length v) (length idx) then loopM (fun y iv => np_set y (Z.of_nat (fst iv)) (snd iv)) (combine idx v) x
  else Err ValueError.

(** [x[mask] = v] with a boolean mask and as many values as the mask selects; as above for single values. *)
(** Models: ope/classification_model.py 214, 529. *)
Fixpoint mask_fill {A : Type} (mask : list bool) (x v : list A) : list A :=
  match mask, x with
  | true :: m, _ :: x' => match v with w :: v' => w :: mask_fill m x' v' | [] => x end
  | false :: m, y :: x' => y :: mask_fill m x' v
  | _, _ => x
  end.
(** Models: ope/classification_model.py 214, 529. *)
Definition mask_put {A : Type} (mask : list bool) (x v : list A) : res (list A) :=
  if negb (Nat.eqb (length mask) (length x)) then Err IndexError
  else if Nat.eqb (length v) (length (filter (fun b => b) mask)) then Ok (mask_fill mask x v) else Err ValueError.

(** [position == pos_] *)
(** Models: ope/regression_model.py 157; ope/classification_model.py 159, 167, 208, 492, 526. *)
Definition at_pos (position : list Z) (p : nat) : list bool := map (fun q => Z.eqb q (Z.of_nat p)) position.

(** [KFold(n_splits=k, shuffle=True, random_state=...).split(context)]: [fold] is the random assignment of rounds
    to folds; index arrays are increasing; more folds than rounds raise ValueError. *)
(** Models: ope/regression_model.py 316; ope/classification_model.py 307, 607. *)
Definition kfold (n k : nat) (fold : nat -> nat) : res (list (list nat * list nat)) :=
  if Nat.ltb n k then Err ValueError
  else Ok (map (fun j => (filter (fun i => negb (Nat.eqb (fold i) j)) (seq 0 n),
                          filter (fun i => Nat.eqb (fold i) j) (seq 0 n))) (seq 0 k)).

(** regression_model.py 358: [np.c_[context, action_context[action]]]. *)
Definition features (action_context context : arr2) (action : list Z) : res arr2 :=
  rows <- mapM (np_get action_context) action ;;
  if Nat.eqb (length context) (length rows) then Ok (map (fun q => fst q ++ snd q) (combine context rows)) else Err ValueError.

(** [np.eye(k)] *)
(** Models: ope/regression_model.py 87; ope/classification_model.py 98, 480, 586. *)
Definition eye (k : nat) : arr2 := map (fun i => map (fun j => nbool (Nat.eqb i j)) (seq 0 k)) (seq 0 k).

(** regression_model.py 135-141 (also 285-291, classification_model.py 140-147, 277-283, 483-489, 588-594). *)
Definition fit_position (len_list : nat) (action : list Z) (position : option (list Z)) : res (list Z) :=
  match position with
  | None => Ok (zzeros (length action))
  | Some q => if Nat.eqb len_list 1 then Ok (zzeros (length action))
              else hi <- zmaxl q ;; raise_if (Z.leb (Z.of_nat len_list) hi) ValueError ;;; Ok q
  end.

Definition shape_is (a : arr3) (n K L : nat) : bool :=
  (Nat.eqb (length a) n && Nat.eqb (dim1 a) K && Nat.eqb (dim2 a) L)%bool.

Inductive fitting := Normal | Iw | Mrdr.

(** ** obp/ope/regression_model.py *)

(** The fields of a [RegressionModel] other than its estimators. *)
(** Models: ope/regression_model.py 66-95. *)
Record reg_conf := mkReg { rm_actions : nat; rm_len : nat; rm_ac : arr2; rm_method : fitting }.

(** regression_model.py 67-87: [__post_init__]; [fitting_method] is one of the three by its type. *)
Definition reg_init (n_actions len_list : Z) (action_context : option arr2) (m : fitting) : res reg_conf :=
  check_scalar_Z n_actions (Some 2%Z) None ;;;
  check_scalar_Z len_list (Some 1%Z) None ;;;
  Ok (mkReg (Z.to_nat n_actions) (Z.to_nat len_list)
            (match action_context with Some ac => ac | None => eye (Z.to_nat n_actions) end) m).

(** regression_model.py 142-152 ([full]) and 292-300 (without the sum test). *)
Definition reg_check_dist (c : reg_conf) (full : bool) (n : nat) (action_dist : option arr3) : res unit :=
  match rm_method c with
  | Normal => Ok tt
  | _ =>
      match action_dist with
      | None => Err ValueError
      | Some d =>
          raise_if (negb (shape_is d n (rm_actions c) (rm_len c))) ValueError ;;;
          (if full then raise_if (negb (allclose1 (sum_axis1 d))) ValueError else Ok tt)
      end
  end.

(** regression_model.py 153-154, 301-302 *)
Definition reg_pscore (c : reg_conf) (action : list Z) (pscore : option arr1) : arr1 :=
  match pscore with Some p => p | None => map (fun _ => ndiv (Fin 1) (nnat (rm_actions c))) action end.

(** regression_model.py 166-181: the [sample_weight] argument of the base estimator. *)
Definition reg_weight (m : fitting) (dist_at_pos pscore : arr1) : res (option arr1) :=
  match m with
  | Normal => Ok None
  | Iw => w <- bcast2 ndiv dist_at_pos pscore ;; Ok (Some w)
  | Mrdr => w1 <- bcast2 nmul dist_at_pos (map (fun p => nsub (Fin 1) p) pscore) ;;
            w2 <- bcast2 ndiv w1 (map nsqr pscore) ;; Ok (Some w2)
  end.

Section Regression.
Context {M : Type}.
(** [base_model.fit(X, y, sample_weight=...)]. *)
Variable rfit : M -> arr2 -> arr1 -> option arr1 -> res M.
(** [predict(X)], or [predict_proba(X)[:, 1]] for a classifier. *)
Variable rpred : M -> arr2 -> res arr1.

(** regression_model.py 156-181, one turn of the loop: the estimator of position [p]. *)
Definition reg_fit_at (c : reg_conf) (context : arr2) (action : list Z) (reward pscore : arr1) (position : list Z)
    (action_dist : option arr3) (p : nat) (m : M) : res M :=
  let idx := at_pos position p in
  ctx <- mask_get idx context ;;
  act <- mask_get idx action ;;
  X <- features (rm_ac c) ctx act ;;
  raise_if (Nat.eqb (length X) 0) ValueError ;;;
  y <- mask_get idx reward ;;
  w <- match rm_method c with
       | Normal => Ok None
       | meth =>
           d <- match action_dist with
                | Some d => fancy3 d (arange (length context)) action [Z.of_nat p]
                | None => Err TypeError
                end ;;
           d <- mask_get idx d ;;
           ps <- mask_get idx pscore ;;
           reg_weight meth d ps
       end ;;
  rfit m X y w.

(** regression_model.py 89-181: [RegressionModel.fit]; [models] is [base_model_list]. *)
Definition reg_fit (c : reg_conf) (models : list M) (context : arr2) (action : list Z) (reward : arr1)
    (pscore : option arr1) (position : option (list Z)) (action_dist : option arr3) : res (list M) :=
  check_bandit_feedback_inputs context action reward None position pscore (Some (rm_ac c)) ;;;
  pos <- fit_position (rm_len c) action position ;;
  reg_check_dist c true (length context) action_dist ;;;
  mapM (fun pm => reg_fit_at c context action reward (reg_pscore c action pscore) pos action_dist (fst pm) (snd pm))
       (combine (seq 0 (rm_len c)) models).

(** regression_model.py 183-212: [RegressionModel.predict]; the array is filled column by column, and a prediction
    of another length than the context raises ValueError. *)
Definition reg_predict (c : reg_conf) (models : list M) (context : arr2) : res arr3 :=
  let n := length context in
  cols <- mapM (fun a =>
            mapM (fun m =>
              X <- features (rm_ac c) context (repeat (Z.of_nat a) n) ;;
              y <- rpred m X ;;
              raise_if (negb (Nat.eqb (length y) n)) ValueError ;;; Ok y) models) (seq 0 (rm_actions c)) ;;
  Ok (map (fun i => map (map (fun y => nth_num y i)) cols) (seq 0 n)).

(** regression_model.py 214-331: [RegressionModel.fit_predict]; returns the estimators too. *)
Definition reg_fit_predict (c : reg_conf) (models : list M) (context : arr2) (action : list Z) (reward : arr1)
    (pscore : option arr1) (position : option (list Z)) (action_dist : option arr3) (n_folds : Z) (fold : nat -> nat)
  : res (list M * arr3) :=
  check_bandit_feedback_inputs context action reward None position pscore (Some (rm_ac c)) ;;;
  check_scalar_Z n_folds (Some 1%Z) None ;;;
  pos <- fit_position (rm_len c) action position ;;
  reg_check_dist c false (length context) action_dist ;;;
  let ps := reg_pscore c action pscore in
  if Z.eqb n_folds 1 then
    models' <- reg_fit c models context action reward (Some ps) (Some pos) action_dist ;;
    q <- reg_predict c models' context ;; Ok (models', q)
  else
    folds <- kfold (length context) (Z.to_nat n_folds) fold ;;
    loopM (fun mq tt =>
      let tr := fst tt in
      dist <- match action_dist with Some d => rmap Some (take d tr) | None => Ok None end ;;
      ctx <- take context tr ;;
      act <- take action tr ;;
      rew <- take reward tr ;;
      p <- take ps tr ;;
      q <- take pos tr ;;
      models' <- reg_fit c (fst mq) ctx act rew (Some p) (Some q) dist ;;
      test <- take context (snd tt) ;;
      pred <- reg_predict c models' test ;;
      filled <- put (snd mq) (snd tt) pred ;;
      Ok (models', filled)) folds (models, zeros3 (length context) (rm_actions c) (rm_len c)).

(** obp/policy/offline.py 425-447: [QLearner.fit] (the q-estimator is a [RegressionModel] built with the learner's
    number of actions and list length, 375-384). *)
Definition q_fit (c : reg_conf) (models : list M) (context : arr2) (action : list Z) (reward : arr1)
    (pscore : option arr1) (position : option (list Z)) : res (list M) :=
  check_bandit_feedback_inputs context action reward None position pscore None ;;;
  ps <- default_pscore action pscore ;;
  pos <- (if Nat.eqb (rm_len c) 1 then Ok (zzeros (length action))
          else match position with Some q => Ok q | None => Err ValueError end) ;;
  reg_fit c models context action reward (Some ps) (Some pos)
    (Some (repeat (repeat (repeat (Fin 1) (rm_len c)) (rm_actions c)) (length context))).
End Regression.

(** ** obp/ope/classification_model.py *)

(** Class labels are integers; [predict_proba] has one column per class seen in [fit].  [calibration_cv] only
    chooses the estimator object, which is an argument here. *)
Section Classification.
Context {C : Type}.
Variable cfit : C -> arr2 -> list Z -> res C.
Variable cproba : C -> arr2 -> res arr2.

(** Models: ope/classification_model.py 66-100. *)
Inductive iw_method := Sample | Raw.
(** Models: ope/classification_model.py 66-100. *)
Record iw_conf := mkIw { iw_actions : nat; iw_len : nat; iw_ac : arr2; iw_meth : iw_method }.

(** classification_model.py 68-98: [ImportanceWeightEstimator.__post_init__]. *)
Definition iw_init (n_actions len_list : Z) (action_context : option arr2) (m : iw_method) : res iw_conf :=
  check_scalar_Z n_actions (Some 2%Z) None ;;;
  check_scalar_Z len_list (Some 1%Z) None ;;;
  Ok (mkIw (Z.to_nat n_actions) (Z.to_nat len_list)
           (match action_context, m with Some ac, Sample => ac | _, _ => eye (Z.to_nat n_actions) end) m).

(** [action_dist[idx][:, :, p]] *)
(** Models: ope/classification_model.py 161, 168, 330, 336. *)
Definition dist_at (action_dist : arr3) (idx : list bool) (p : nat) : res arr2 :=
  d <- mask_get idx action_dist ;; mapM (mapM (fun cell => np_get cell (Z.of_nat p))) d.

(** classification_model.py 350-394: [_pre_process_for_clf_model] when fitting. *)
Definition clf_train (c : iw_conf) (context : arr2) (action : list Z) (dist_at_pos : arr2) (sampled : list Z)
  : res (arr2 * list Z) :=
  b <- features (iw_ac c) context action ;;
  e <- match iw_meth c with
       | Raw => if Nat.eqb (length context) (length dist_at_pos)
                then Ok (map (fun q => fst q ++ snd q) (combine context dist_at_pos)) else Err ValueError
       | Sample => features (iw_ac c) context sampled
       end ;;
  Ok (b ++ e, repeat 0%Z (length b) ++ repeat 1%Z (length e)).

(** classification_model.py 155-164: sampled actions of the evaluation policy; [draw] is [sample_action_fast] with
    the given random state (modelled in M_Utils). *)
Definition sampled_actions (c : iw_conf) (draw : arr2 -> res (list Z)) (n : nat) (position : list Z) (action_dist : arr3)
  : res (list Z) :=
  match iw_meth c with
  | Raw => Ok (zzeros n)
  | Sample =>
      loopM (fun s p =>
        let idx := at_pos position p in
        d <- dist_at action_dist idx p ;;
        a <- draw d ;;
        mask_put idx s a) (seq 0 (iw_len c)) (zzeros n)
  end.

(** classification_model.py 100-177: [ImportanceWeightEstimator.fit]. *)
Definition iw_fit (c : iw_conf) (draw : arr2 -> res (list Z)) (models : list C) (context : arr2) (action : list Z)
    (action_dist : arr3) (position : option (list Z)) : res (list C) :=
  check_bandit_feedback_inputs context action (repeat (Fin 0) (length action)) None position None (Some (iw_ac c)) ;;;
  pos <- fit_position (iw_len c) action position ;;
  raise_if (negb (shape_is action_dist (length context) (iw_actions c) (iw_len c))) ValueError ;;;
  raise_if (negb (allclose1 (sum_axis1 action_dist))) ValueError ;;;
  s <- sampled_actions c draw (length context) pos action_dist ;;
  mapM (fun pm =>
    let idx := at_pos pos (fst pm) in
    d <- dist_at action_dist idx (fst pm) ;;
    ctx <- mask_get idx context ;;
    act <- mask_get idx action ;;
    sa <- mask_get idx s ;;
    Xy <- clf_train c ctx act d sa ;;
    raise_if (Nat.eqb (length (fst Xy)) 0) ValueError ;;;
    cfit (snd pm) (fst Xy) (snd Xy)) (combine (seq 0 (iw_len c)) models).

(** [predict_proba(X)[:, 1]] *)
(** Models: ope/classification_model.py 214; ope/regression_model.py 207. *)
Definition proba1 (m : C) (X : arr2) : res arr1 := y <- cproba m X ;; mapM (fun r => np_get r 1) y.

(** classification_model.py 179-215: [ImportanceWeightEstimator.predict].  Without positions [context[None == 0]] has
    one more axis; [np.c_] of it with the 3-D [action_context[action[False]]] is a 3-D array without rows, which
    scikit-learn's input validation rejects with ValueError. *)
Definition iw_predict (c : iw_conf) (models : list C) (context : arr2) (action : list Z) (position : option (list Z))
  : res arr1 :=
  match position with
  | None => Err ValueError
  | Some pos =>
      p <- loopM (fun y pm =>
             let idx := at_pos pos (fst pm) in
             ctx <- mask_get idx context ;;
             act <- mask_get idx action ;;
             X <- features (iw_ac c) ctx act ;;
             v <- proba1 (snd pm) X ;;
             mask_put idx y v) (combine (seq 0 (iw_len c)) models) (repeat (Fin 0) (length action)) ;;
      Ok (map (fun v => ndiv v (nsub (Fin 1) v)) p)
  end.

(** classification_model.py 217-348: [ImportanceWeightEstimator.fit_predict] ([evaluate_model_performance] only
    records what it computes and is not modelled). *)
Definition iw_fit_predict (c : iw_conf) (draw : arr2 -> res (list Z)) (models : list C) (context : arr2)
    (action : list Z) (action_dist : arr3) (position : option (list Z)) (n_folds : Z) (fold : nat -> nat)
  : res (list C * arr1) :=
  check_bandit_feedback_inputs context action (repeat (Fin 0) (length action)) None position None (Some (iw_ac c)) ;;;
  pos <- fit_position (iw_len c) action position ;;
  check_scalar_Z n_folds (Some 1%Z) None ;;;
  raise_if (negb (shape_is action_dist (length context) (iw_actions c) (iw_len c))) ValueError ;;;
  raise_if (negb (allclose1 (sum_axis1 action_dist))) ValueError ;;;
  if Z.eqb n_folds 1 then
    models' <- iw_fit c draw models context action action_dist (Some pos) ;;
    w <- iw_predict c models' context action (Some pos) ;; Ok (models', w)
  else
    folds <- kfold (length context) (Z.to_nat n_folds) fold ;;
    loopM (fun mw tt =>
      let tr := fst tt in
      let te := snd tt in
      ctx <- take context tr ;; act <- take action tr ;; q <- take pos tr ;; d <- take action_dist tr ;;
      models' <- iw_fit c draw (fst mw) ctx act d (Some q) ;;
      ctx' <- take context te ;; act' <- take action te ;; q' <- take pos te ;;
      w <- iw_predict c models' ctx' act' (Some q') ;;
      filled <- put (snd mw) te w ;;
      Ok (models', filled)) folds (models, repeat (Fin 0) (length context)).

(** classification_model.py 453-495: [PropensityScoreEstimator.fit]; [K] and [L] are n_actions and len_list. *)
Definition ps_fit (K L : nat) (models : list C) (context : arr2) (action : list Z) (position : option (list Z))
  : res (list C) :=
  check_bandit_feedback_inputs context action (repeat (Fin 0) (length action)) None position None (Some (eye K)) ;;;
  pos <- fit_position L action position ;;
  mapM (fun pm =>
    let idx := at_pos pos (fst pm) in
    ctx <- mask_get idx context ;;
    raise_if (Nat.eqb (length ctx) 0) ValueError ;;;
    act <- mask_get idx action ;;
    cfit (snd pm) ctx act) (combine (seq 0 L) models).

(** classification_model.py 497-532: [PropensityScoreEstimator.predict].  Without positions [None == pos_] is [False]
    and [context[False]] has no rows, so every position is skipped. *)
Definition ps_predict (L : nat) (models : list C) (context : arr2) (action : list Z) (position : option (list Z))
  : res arr1 :=
  loopM (fun y pm =>
    match position with
    | None => Ok y
    | Some pos =>
        let idx := at_pos pos (fst pm) in
        ctx <- mask_get idx context ;;
        if Nat.eqb (length ctx) 0 then Ok y
        else
          pr <- cproba (snd pm) ctx ;;
          act <- mask_get idx action ;;
          v <- pick pr act ;;
          mask_put idx y v
    end) (combine (seq 0 L) models) (repeat (Fin 0) (length action)).

(** classification_model.py 534-633: [PropensityScoreEstimator.fit_predict]. *)
Definition ps_fit_predict (K L : nat) (models : list C) (context : arr2) (action : list Z) (position : option (list Z))
    (n_folds : Z) (fold : nat -> nat) : res (list C * arr1) :=
  check_bandit_feedback_inputs context action (repeat (Fin 0) (length action)) None position None (Some (eye K)) ;;;
  pos <- fit_position L action position ;;
  check_scalar_Z n_folds (Some 1%Z) None ;;;
  if Z.eqb n_folds 1 then
    models' <- ps_fit K L models context action (Some pos) ;;
    w <- ps_predict L models' context action (Some pos) ;; Ok (models', w)
  else
    folds <- kfold (length context) (Z.to_nat n_folds) fold ;;
    loopM (fun mw tt =>
      let tr := fst tt in
      let te := snd tt in
      ctx <- take context tr ;; act <- take action tr ;; q <- take pos tr ;;
      models' <- ps_fit K L (fst mw) ctx act (Some q) ;;
      ctx' <- take context te ;; act' <- take action te ;; q' <- take pos te ;;
      w <- ps_predict L models' ctx' act' (Some q') ;;
      filled <- put (snd mw) te w ;;
      Ok (models', filled)) folds (models, repeat (Fin 0) (length context)).
End Classification.

(** ** obp/ope/regression_model_slate.py *)

(** [np.allclose(np.ones(n), x)]: the tolerance is relative to the second argument. *)
(** Models: ope/regression_model.py 151; ope/classification_model.py 152, 293. *)
Definition allclose_ones (x : arr1) : bool :=
  forallb (fun v => match v with Fin a => Rleb (Rabs (1 - a)) (1 / 100000000 + 1 / 100000 * Rabs a) | _ => false end) x.

(** regression_model_slate.py 111-173: the checks of [fit]. *)
Definition slate_check (K L : nat) (context : arr2) (action : list Z) (reward pscore epscore dist : arr1) : res unit :=
  let n := (length context * L)%nat in
  raise_if (negb (Nat.eqb (length action) n && Nat.eqb (length reward) n && Nat.eqb (length pscore) n &&
                  Nat.eqb (length epscore) n)%bool) ValueError ;;;
  raise_if (negb (Nat.eqb (length dist) (length context * L * K))) ValueError ;;;
  lo <- zminl action ;;
  raise_if (Z.ltb lo 0) ValueError ;;;
  hi <- zmaxl action ;;
  raise_if (Z.leb (Z.of_nat K) hi) ValueError ;;;
  raise_if (existsb (fun p => nle p (Fin 0) || nlt (Fin 1) p)%bool pscore) ValueError ;;;
  raise_if (existsb (fun p => nle p (Fin 0) || nlt (Fin 1) p)%bool epscore) ValueError ;;;
  rows <- reshape K dist ;;
  raise_if (negb (allclose_ones (map nsum rows))) ValueError.

(** regression_model_slate.py 366-374 and 238-246: one row per (round, candidate action): context, earlier actions,
    candidate.  [prefix] holds the earlier actions of each round. *)
Definition candidate_rows (K : nat) (context : arr2) (prefix : list (list Z)) : arr2 :=
  flat_map (fun q => map (fun a => fst q ++ map (fun z => Fin (IZR z)) (snd q ++ [Z.of_nat a])) (seq 0 K))
           (combine context prefix).

Section SlateRegression.
Context {M : Type}.
Variable rfit : M -> arr2 -> arr1 -> arr1 -> res M.
Variable rpred : M -> arr2 -> res arr1.

Definition nth_model (models : list M) (p : nat) : res M :=
  match nth_error models p with Some m => Ok m | None => Err IndexError end.

(** regression_model_slate.py 307-390: [_preprocess_for_reg_model]; [action] and [reward] have one row per round. *)
Definition slate_targets (K L : nat) (models : list M) (context : arr2) (action : list (list Z)) (reward : arr2)
    (dist : arr1) (p : nat) : res (arr2 * arr1) :=
  let prefix := map (firstn (S p)) action in
  r <- mapM (fun row => np_get row (Z.of_nat p)) reward ;;
  let X := map (fun q => fst q ++ map (fun z => Fin (IZR z)) (snd q)) (combine context prefix) in
  next <- (if Nat.eqb (S p) L then Ok (repeat (Fin 0) (length context))
           else
             rows <- reshape K dist ;;
             per_round <- reshape L rows ;;
             d <- mapM (fun x => np_get x (Z.of_nat (S p))) per_round ;;
             m <- nth_model models (S p) ;;
             y <- rpred m (candidate_rows K context prefix) ;;
             z <- bcast2 nmul (concat d) y ;;
             z <- reshape K z ;;
             Ok (map nsum z)) ;;
  y <- bcast2 nadd r next ;;
  Ok (X, y).

(** regression_model_slate.py 76-197: [SlateRegressionModel.fit]; [iw] is fitting_method == "iw". *)
Definition slate_fit (iw : bool) (K L : nat) (models : list M) (context : arr2) (action : list Z)
    (reward pscore epscore dist : arr1) : res (list M) :=
  slate_check K L context action reward pscore epscore dist ;;;
  act <- reshape L action ;;
  rew <- reshape L reward ;;
  w <- bcast2 ndiv epscore pscore ;;
  w <- reshape L w ;;
  loopM (fun ms p =>
    Xy <- slate_targets K L ms context act rew dist p ;;
    sw <- (if iw then mapM (fun row => np_get row (Z.of_nat p)) w else Ok (repeat (Fin 1) (length act))) ;;
    m <- nth_model ms p ;;
    m' <- rfit m (fst Xy) (snd Xy) sw ;;
    Ok (set_nth ms p m')) (rev (seq 0 L)) models.

(** regression_model_slate.py 199-254: [predict]; the flattened (round, position, action) array. *)
Definition slate_predict (K L : nat) (models : list M) (context : arr2) (action : list Z) : res arr1 :=
  raise_if (negb (Nat.eqb (length action) (length context * L))) ValueError ;;;
  act <- reshape L action ;;
  blocks <- mapM (fun p =>
    m <- nth_model models p ;;
    y <- rpred m (candidate_rows K context (map (firstn p) act)) ;;
    rows <- reshape K y ;;
    raise_if (negb (Nat.eqb (length rows) (length context))) ValueError ;;; Ok rows) (rev (seq 0 L)) ;;
  Ok (flat_map (fun i => flat_map (fun rows => nth i rows []) (rev blocks)) (seq 0 (length context))).

(** regression_model_slate.py 256-305: [fit_predict]. *)
Definition slate_fit_predict (iw : bool) (K L : nat) (models : list M) (context : arr2) (action : list Z)
    (reward pscore epscore dist : arr1) : res (list M * arr1) :=
  models' <- slate_fit iw K L models context action reward pscore epscore dist ;;
  q <- slate_predict K L models' context action ;;
  Ok (models', q).
End SlateRegression.
