(** * M_Multi: model of obp/ope/estimators_multi.py and of the multi-logger check in obp/utils.py.

    The bool-type check of [use_estimated_pscore] is represented by its type. *)

From Coq Require Import Reals List ZArith Bool.
From Verif Require Import Num NpList M_Utils M_Estimators M_Slate.
Import ListNotations.
Open Scope R_scope.

(** utils.py 415-469: [check_multi_loggers_ope_inputs]. *)
Definition check_multi_loggers_ope_inputs (action_dist : arr3) (position action : option (list Z))
    (reward : option arr1) (stratum_idx : option (list Z)) (pscore : option arr1)
    (q_hat : option arr3) : res unit :=
  check_ope_inputs action_dist position action reward pscore q_hat None ;;;
  match stratum_idx with
  | None => Ok tt
  | Some st =>
      raise_if (negb (Nat.eqb (length action_dist) (length st))) ValueError ;;;
      mn <- zminl st ;;
      raise_if (negb (Z.leb 0 mn)) ValueError
  end.

(** [x[mask]] with a boolean mask: IndexError when the lengths differ. *)
(** Models: ope/estimators_multi.py 688-692, 1605-1609. *)
Definition mask_get {A : Type} (mask : list bool) (x : list A) : res (list A) :=
  if Nat.eqb (length mask) (length x) then Ok (map snd (filter fst (combine mask x)))
  else Err IndexError.

(** [x[k] = v] for one integer index: negative counts from the end, out of range is IndexError. *)
(** Models: ope/estimators_multi.py 688-692, 1605-1609. *)
Definition np_set {A : Type} (x : list A) (k : Z) (v : A) : res (list A) :=
  let n := Z.of_nat (length x) in
  let j := (if Z.ltb k 0 then k + n else k)%Z in
  if (Z.leb 0 j && Z.ltb j n)%bool
  then Ok (firstn (Z.to_nat j) x ++ v :: skipn (S (Z.to_nat j)) x)
  else Err IndexError.

(** Second result of [np.unique(x, return_counts=True)]. *)
(** Models: ope/estimators_multi.py 686, 1603. *)
Definition np_unique_counts (l : list Z) : list nat :=
  map (fun k => length (filter (Z.eqb k) l)) (np_unique l).

(** estimators_multi.py 136-148: [MultiLoggersNaiveInverseProbabilityWeighting._estimate_round_rewards]. *)
Definition mn_ipw_round (lam : num) (reward : arr1) (action : list Z) (pscore : arr1)
    (action_dist : arr3) (position : list Z) : res arr1 :=
  iw <- importance_weights action_dist action position pscore ;;
  bcast2 nmul reward (map (fun w => nmin w lam) iw).

(** estimators_multi.py 686-690 and 1603-1610: the variance of each stratum's values,
    [for k in unique_stratum_idx: var_k[k] = np.var(values[stratum_idx == k])].
    [values k mask] are the values selected by the mask. *)
Fixpoint stratum_vars (values : list bool -> res arr1) (stratum_idx : list Z) (ks : list Z)
    (var_k : arr1) : res arr1 :=
  match ks with
  | [] => Ok var_k
  | k :: r =>
      vs <- values (map (fun s => Z.eqb s k) stratum_idx) ;;
      var_k' <- np_set var_k k (nvar vs) ;;
      stratum_vars values stratum_idx r var_k'
  end.

(** estimators_multi.py 691 and 1611: [n / (var_k * np.sum(n_data_strata / var_k))]. *)
Definition stratum_weights (n : nat) (n_data_strata : list nat) (var_k : arr1) : res arr1 :=
  q <- bcast2 ndiv (map nnat n_data_strata) var_k ;;
  Ok (map (fun v => ndiv (nnat n) (nmul v (nsum q))) var_k).

(** estimators_multi.py 677-693: [MultiLoggersWeightedInverseProbabilityWeighting._estimate_round_rewards]. *)
Definition mw_ipw_round (lam : num) (stratum_idx : list Z) (reward : arr1) (action : list Z)
    (pscore : arr1) (action_dist : arr3) (position : list Z) : res arr1 :=
  iw0 <- importance_weights action_dist action position pscore ;;
  let iw := map (fun w => nmin w lam) iw0 in
  let uniq := np_unique stratum_idx in
  var_k <- stratum_vars (fun mask => r <- mask_get mask reward ;; w <- mask_get mask iw ;;
                                     bcast2 nmul r w)
                        stratum_idx uniq (map (fun _ => Fin 0) uniq) ;;
  weight_k <- stratum_weights (length action) (np_unique_counts stratum_idx) var_k ;;
  rw <- bcast2 nmul reward iw ;;
  ws <- mapM (np_get weight_k) stratum_idx ;;
  bcast2 nmul rw ws.

(** estimators_multi.py 971-994: [MultiLoggersNaiveDoublyRobust._estimate_round_rewards]. *)
Definition mn_dr_round (lam : num) (reward : arr1) (action : list Z) (pscore : arr1)
    (action_dist q_hat : arr3) (position : list Z) : res arr1 :=
  iw <- importance_weights action_dist action position pscore ;;
  qf <- q_factual q_hat action position ;;
  est <- dm_baseline action_dist q_hat (length action) position ;;
  resid <- bcast2 nsub reward qf ;;
  corr <- bcast2 nmul (map (fun w => nmin w lam) iw) resid ;;
  iadd est corr.

(** estimators_multi.py 1586-1614: [MultiLoggersWeightedDoublyRobust._estimate_round_rewards]. *)
Definition mw_dr_round (lam : num) (stratum_idx : list Z) (reward : arr1) (action : list Z)
    (pscore : arr1) (action_dist q_hat : arr3) (position : list Z) : res arr1 :=
  iw0 <- importance_weights action_dist action position pscore ;;
  let iw := map (fun w => nmin w lam) iw0 in
  qf <- q_factual q_hat action position ;;
  est <- dm_baseline action_dist q_hat (length action) position ;;
  let uniq := np_unique stratum_idx in
  var_k <- stratum_vars (fun mask => e <- mask_get mask est ;; w <- mask_get mask iw ;;
                                     r <- mask_get mask reward ;; q <- mask_get mask qf ;;
                                     d <- bcast2 nsub r q ;; c <- bcast2 nmul w d ;;
                                     bcast2 nadd e c)
                        stratum_idx uniq (map (fun _ => Fin 0) uniq) ;;
  weight_k <- stratum_weights (length action) (np_unique_counts stratum_idx) var_k ;;
  resid <- bcast2 nsub reward qf ;;
  corr <- bcast2 nmul iw resid ;;
  ws <- mapM (np_get weight_k) stratum_idx ;;
  corr' <- bcast2 nmul corr ws ;;
  iadd est corr'.

(** estimators_multi.py 376-420 and 1244-1303: the balanced [_estimate_round_rewards] called with
    keyword arguments.  [pscore_avg] is a required parameter: a call that does not supply it
    ([None]) is a TypeError, whatever else is in [**kwargs]. *)
Definition mb_ipw_round (lam : num) (pscore_avg : option arr1) (reward : arr1) (action : list Z)
    (action_dist : arr3) (position : list Z) : res arr1 :=
  match pscore_avg with
  | None => Err TypeError
  | Some p => mn_ipw_round lam reward action p action_dist position
  end.
Definition mb_dr_round (lam : num) (pscore_avg : option arr1) (reward : arr1) (action : list Z)
    (action_dist q_hat : arr3) (position : list Z) : res arr1 :=
  match pscore_avg with
  | None => Err TypeError
  | Some p => mn_dr_round lam reward action p action_dist q_hat position
  end.

(** estimators_multi.py 192-217, 273-304 (naive IPW), 454-478, 547-573 (balanced IPW),
    739-768, 829-866 (weighted IPW): shared prologue of the public methods — choice of the
    propensities, input check, default position. *)
Definition m_ipw_like (use_est : bool) (round : arr1 -> list Z -> res arr1)
    (stratum_idx : option (list Z)) (reward : arr1) (action : list Z) (action_dist : arr3)
    (pscore : option arr1) (position : option (list Z)) (estimated_pscore : option arr1) : res arr1 :=
  ps <- choose_pscore use_est pscore estimated_pscore ;;
  check_multi_loggers_ope_inputs action_dist position (Some action) (Some reward) stratum_idx
    (Some ps) None ;;;
  round ps (default_position action_dist position).
(** estimators_multi.py 1042-1074, 1134-1166, 1445-1479, 1666-1701, 1763-1800: same for the DR estimators. *)
Definition m_dr_like (use_est : bool) (round : arr1 -> list Z -> res arr1)
    (stratum_idx : option (list Z)) (reward : arr1) (action : list Z) (action_dist q_hat : arr3)
    (pscore : option arr1) (position : option (list Z)) (estimated_pscore : option arr1) : res arr1 :=
  ps <- choose_pscore use_est pscore estimated_pscore ;;
  check_multi_loggers_ope_inputs action_dist position (Some action) (Some reward) stratum_idx
    (Some ps) (Some q_hat) ;;;
  round ps (default_position action_dist position).

Definition mean_of (m : res arr1) : res num := rr <- m ;; Ok (nmean rr).

(** *** estimate_policy_value *)

(** estimators_multi.py 150-217 *)
Definition mn_ipw_value (lam : num) use_est reward action action_dist pscore position epscore : res num :=
  mean_of (m_ipw_like use_est (fun ps pos => mn_ipw_round lam reward action ps action_dist pos)
             None reward action action_dist pscore position epscore).
(** estimators_multi.py 422-490: passes [pscore_avg=pscore_]. *)
Definition mb_ipw_value (lam : num) use_est reward action action_dist pscore_avg position epscore_avg : res num :=
  mean_of (m_ipw_like use_est (fun ps pos => mb_ipw_round lam (Some ps) reward action action_dist pos)
             None reward action action_dist pscore_avg position epscore_avg).
(** estimators_multi.py 695-770 *)
Definition mw_ipw_value (lam : num) use_est reward action action_dist stratum_idx pscore position epscore : res num :=
  mean_of (m_ipw_like use_est
             (fun ps pos => mw_ipw_round lam stratum_idx reward action ps action_dist pos)
             (Some stratum_idx) reward action action_dist pscore position epscore).
(** estimators_multi.py 996-1074 *)
Definition mn_dr_value (lam : num) use_est reward action action_dist q_hat pscore position epscore : res num :=
  mean_of (m_dr_like use_est (fun ps pos => mn_dr_round lam reward action ps action_dist q_hat pos)
             None reward action action_dist q_hat pscore position epscore).
(** estimators_multi.py 1305-1386 *)
Definition mb_dr_value (lam : num) use_est reward action action_dist q_hat pscore_avg position epscore_avg : res num :=
  mean_of (m_dr_like use_est (fun ps pos => mb_dr_round lam (Some ps) reward action action_dist q_hat pos)
             None reward action action_dist q_hat pscore_avg position epscore_avg).
(** estimators_multi.py 1616-1701 *)
Definition mw_dr_value (lam : num) use_est reward action action_dist stratum_idx q_hat pscore position epscore : res num :=
  mean_of (m_dr_like use_est
             (fun ps pos => mw_dr_round lam stratum_idx reward action ps action_dist q_hat pos)
             (Some stratum_idx) reward action action_dist q_hat pscore position epscore).

(** *** estimate_interval *)

(** Models: ope/estimators_multi.py 258-320 (the intervals of the estimators). *)
Definition interval_of (m : res arr1) (alpha : R) (n_boot : Z) (choice : nat -> nat -> nat) : res interval :=
  rr <- m ;; estimate_confidence_interval_by_bootstrap rr alpha n_boot choice.

(** estimators_multi.py 219-304 *)
Definition mn_ipw_interval (lam : num) use_est reward action action_dist pscore position epscore
    alpha n_boot choice : res interval :=
  interval_of (m_ipw_like use_est (fun ps pos => mn_ipw_round lam reward action ps action_dist pos)
             None reward action action_dist pscore position epscore) alpha n_boot choice.
(** estimators_multi.py 492-580: calls [_estimate_round_rewards(..., pscore=pscore_, ...)], so the
    required [pscore_avg] is missing. *)
Definition mb_ipw_interval (lam : num) use_est reward action action_dist pscore_avg position epscore_avg
    alpha n_boot choice : res interval :=
  interval_of (m_ipw_like use_est (fun ps pos => mb_ipw_round lam None reward action action_dist pos)
             None reward action action_dist pscore_avg position epscore_avg) alpha n_boot choice.
(** estimators_multi.py 772-868 *)
Definition mw_ipw_interval (lam : num) use_est reward action action_dist stratum_idx pscore position
    epscore alpha n_boot choice : res interval :=
  interval_of (m_ipw_like use_est
             (fun ps pos => mw_ipw_round lam stratum_idx reward action ps action_dist pos)
             (Some stratum_idx) reward action action_dist pscore position epscore) alpha n_boot choice.
(** estimators_multi.py 1076-1172 *)
Definition mn_dr_interval (lam : num) use_est reward action action_dist q_hat pscore position epscore
    alpha n_boot choice : res interval :=
  interval_of (m_dr_like use_est (fun ps pos => mn_dr_round lam reward action ps action_dist q_hat pos)
             None reward action action_dist q_hat pscore position epscore) alpha n_boot choice.
(** estimators_multi.py 1388-1485: same missing [pscore_avg]. *)
Definition mb_dr_interval (lam : num) use_est reward action action_dist q_hat pscore_avg position epscore_avg
    alpha n_boot choice : res interval :=
  interval_of (m_dr_like use_est (fun ps pos => mb_dr_round lam None reward action action_dist q_hat pos)
             None reward action action_dist q_hat pscore_avg position epscore_avg) alpha n_boot choice.
(** estimators_multi.py 1703-1806 *)
Definition mw_dr_interval (lam : num) use_est reward action action_dist stratum_idx q_hat pscore position
    epscore alpha n_boot choice : res interval :=
  interval_of (m_dr_like use_est
             (fun ps pos => mw_dr_round lam stratum_idx reward action ps action_dist q_hat pos)
             (Some stratum_idx) reward action action_dist q_hat pscore position epscore) alpha n_boot choice.
