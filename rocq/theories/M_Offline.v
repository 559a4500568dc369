(** * M_Offline: model of obp/policy/offline.py (IPWLearner, QLearner, NNPolicyLearner, QFuncEstimator) and
    of obp/policy/offline_continuous.py (NNPolicyLearnerForContinuousAction).

    The scikit-learn classifiers, the torch networks, the optimizers, the data loaders and the random number
    generators are arguments.  [tau] and the regularisation parameters are floats (their type checks are carried
    by the Coq types), [n_rounds] is [context.shape[0]]. *)

From Coq Require Import Reals List ZArith Bool.
From Verif Require Import Num NpList M_Utils M_Multi M_Feedback M_Cont.
Import ListNotations.
Open Scope R_scope.

(** A Python [for] loop that updates a state. *)
(** Models: policy/offline.py 175, 208, 297, 1399. *)
Fixpoint loopM {A S : Type} (f : S -> A -> res S) (l : list A) (s : S) : res S :=
  match l with
  | [] => Ok s
  | x :: r => s' <- f s x ;; loopM f r s'
  end.

(** policy/base.py 188-191: [BaseOfflinePolicyLearner.__post_init__]. *)
Definition learner_init (n_actions len_list : Z) : res unit :=
  check_scalar_Z n_actions (Some 2%Z) None ;;;
  check_scalar_Z len_list (Some 1%Z) (Some n_actions).

(** [np.zeros((n, K, L))] *)
(** Models: policy/offline.py 207, 236, 293, 564, 1337, 1395. *)
Definition zeros3 (n K L : nat) : arr3 := repeat (repeat (repeat (Fin 0) L) K) n.

(** [x[a, p] = f(x[a, p])] for one round of a 3-D array (x has shape (K, L)). *)
(** Models: policy/offline.py 213, 298, 493, 569, 1338, 1400. *)
Definition upd_cell (f : num -> num) (x : arr2) (a : Z) (p : nat) : res arr2 :=
  r <- np_get x a ;;
  v <- np_get r (Z.of_nat p) ;;
  r' <- np_set r (Z.of_nat p) (f v) ;;
  np_set x a r'.

(** [x[np.arange(n), a, p] = f(..)] for an index array [a]: IndexError when its length is not n.  (NumPy would
    broadcast an array of length one; [a] always has one entry per round here.) *)
(** Models: policy/offline.py 213, 298, 493, 569, 1338, 1400. *)
Definition upd_cells (f : num -> num) (x : arr3) (a : list Z) (p : nat) : res arr3 :=
  if Nat.eqb (length x) (length a)
  then mapM (fun q => upd_cell f (fst q) (snd q) p) (combine x a)
  else Err IndexError.

(** offline.py 77-106, 153-182: [IPWLearner.fit]: the training data (X, sample_weight, y) handed to the
    classifier of each position, in order.  [np.ones_like(action)] is an integer array; dividing it makes it a
    float array. *)
Definition ipw_train (context : arr2) (action : list Z) (reward pscore : arr1) (position : list Z) (p : Z)
  : res (arr2 * arr1 * list Z) :=
  let mask := map (Z.eqb p) position in
  X <- mask_get mask context ;;
  y <- mask_get mask action ;;
  r <- mask_get mask reward ;;
  q <- mask_get mask pscore ;;
  w <- bcast2 ndiv r q ;;
  Ok (X, w, y).

(** offline.py 166-168, 434-436: the default propensities. *)
Definition default_pscore (action : list Z) (pscore : option arr1) : res arr1 :=
  match pscore with
  | Some p => Ok p
  | None => m <- zmaxl action ;; Ok (map (fun _ => ndiv (Fin 1) (Fin (IZR (m + 1)))) action)
  end.

(** offline.py 169-173, 437-441: the default positions. *)
Definition default_position (len_list : nat) (action : list Z) (position : option (list Z)) : res (list Z) :=
  if Nat.eqb len_list 1 then Ok (map (fun _ => 0%Z) action)
  else match position with Some q => Ok q | None => Err ValueError end.

Definition ipw_fit (len_list : nat) (context : arr2) (action : list Z) (reward : arr1) (pscore : option arr1)
    (position : option (list Z)) : res (list (arr2 * arr1 * list Z)) :=
  check_bandit_feedback_inputs context action reward None position pscore None ;;;
  raise_if (any_lt0 reward) ValueError ;;;
  q <- default_pscore action pscore ;;
  pos <- default_position len_list action position ;;
  mapM (fun p => ipw_train context action reward q pos (Z.of_nat p)) (seq 0 len_list).

(** offline.py 204-217: [IPWLearner.predict]; [labels p] is what the classifier of position p predicts. *)
Definition ipw_predict (n K L : nat) (labels : nat -> list Z) : res arr3 :=
  loopM (fun dist p => upd_cells (fun v => nadd v (Fin 1)) dist (labels p) p) (seq 0 L) (zeros3 n K L).

(** [x[:, :, p] = y] for one round: [y] has the length of the round or length one (broadcast), anything else is
    ValueError. *)
(** Models: policy/offline.py 237-250. *)
Definition set_column (x : arr2) (y : arr1) (p : nat) : res arr2 :=
  if Nat.eqb (length x) (length y)
  then mapM (fun q => np_set (fst q) (Z.of_nat p) (snd q)) (combine x y)
  else match y with
       | [v] => mapM (fun r => np_set r (Z.of_nat p) v) x
       | _ => Err ValueError
       end.

(** offline.py 233-242: [IPWLearner.predict_score]; [proba p] is the classifier's [predict_proba], one row per
    round and one column per class seen in training. *)
Definition ipw_predict_score (n K L : nat) (proba : nat -> arr2) : res arr3 :=
  loopM (fun score p =>
           if Nat.eqb (length score) (length (proba p))
           then mapM (fun q => set_column (fst q) (snd q) p) (combine score (proba p))
           else Err ValueError) (seq 0 L) (zeros3 n K L).

(** offline.py 291-299, 562-570, 1393-1401: [sample_action] from the (n, K, L') scores: average over the last
    axis, divide by the temperature, add Gumbel noise, rank; position p shows the p-th best action. *)
Definition noisy_scores (score : arr3) (tau : num) (gumbel : arr2) : res arr2 :=
  let s := map (map (fun cell => ndiv (nmean cell) tau)) score in
  if Nat.eqb (length s) (length gumbel)
  then mapM (fun q => bcast2 nadd (fst q) (snd q)) (combine s gumbel)
  else Err ValueError.

Definition sample_ranking (argsort : list num -> list nat) (n K L : nat) (score : arr3) (tau : num)
    (gumbel : arr2) : res arr3 :=
  check_scalar tau (Some (Fin 0)) None ;;;
  s <- noisy_scores score tau gumbel ;;
  let ranking := map (fun row => argsort (map nopp row)) s in
  loopM (fun x p =>
           acts <- mapM (fun r => match nth_error r p with
                                  | Some a => Ok (Z.of_nat a)
                                  | None => Err IndexError
                                  end) ranking ;;
           upd_cells (fun _ => Fin 1) x acts p) (seq 0 L) (zeros3 n K L).

(** [scipy.special.softmax(x, axis=1)] and utils.py 982-987 on one row of floats: subtract the maximum,
    exponentiate, divide by the sum. *)
Definition nsoftmax (x : arr1) : res arr1 :=
  b <- nmaxl x ;;
  let numerator := map (fun v => nexp (nsub v b)) x in
  let denominator := nsum numerator in
  Ok (map (fun v => ndiv v denominator) numerator).

(** [x[i, :, p]] of a 3-D array, as a row over the actions; and back. *)
(** Models: policy/offline.py 346, 612. *)
Definition round_columns (L : nat) (x : arr2) : arr2 := map (fun p => map (fun r => nth_num r p) x) (seq 0 L).
(** Models: policy/offline.py 346, 612. *)
Definition softmax_axis1 (L : nat) (x : arr3) : res arr3 :=
  mapM (fun r => cols <- mapM nsoftmax (round_columns L r) ;; Ok (round_columns (length r) cols)) x.

(** Models: policy/offline.py 346, 612. *)
Definition div3 (x : arr3) (tau : num) : arr3 := map (map (map (fun v => ndiv v tau))) x.

(** offline.py 339-347: [IPWLearner.predict_proba] from [predict_score]. *)
Definition ipw_predict_proba (len_list : nat) (score : arr3) (tau : num) : res arr3 :=
  raise_if (negb (Nat.eqb len_list 1)) AssertionErr ;;;
  check_scalar tau (Some (Fin 0)) None ;;;
  softmax_axis1 len_list (div3 score tau).

(** offline.py 608-613: [QLearner.predict_proba] from [predict_score]. *)
Definition q_predict_proba (len_list : nat) (q_hat : arr3) (tau : num) : res arr3 :=
  check_scalar tau (Some (Fin 0)) None ;;;
  softmax_axis1 len_list (div3 q_hat tau).

(** [np.argmax] of one row: index of the first maximum; the first NaN counts as the maximum. *)
(** Models: policy/offline.py 488, 1336. *)
Fixpoint argmax_from (best : num) (at_ : nat) (i : nat) (l : list num) : nat :=
  match l with
  | [] => at_
  | x :: r => if negb (is_nan best) && (is_nan x || nlt best x) then argmax_from x i (S i) r
              else argmax_from best at_ (S i) r
  end.
(** Models: policy/offline.py 488, 1336. *)
Definition np_argmax (l : list num) : res nat :=
  match l with [] => Err ValueError | x :: r => Ok (argmax_from x 0 1 r) end.

(** offline.py 484-494: [QLearner.predict] from [predict_score] (shape (n, K, L)). *)
Definition q_predict (n K L : nat) (q_hat : arr3) (tau : num) : res arr3 :=
  check_scalar tau (Some (Fin 0)) None ;;;
  loopM (fun x p =>
           acts <- mapM (fun r => a <- np_argmax (map (fun cell => nth_num cell p) r) ;; Ok (Z.of_nat a)) q_hat ;;
           upd_cells (fun _ => Fin 1) x acts p) (seq 0 L) (zeros3 n K L).

(** offline.py 1326-1340: [NNPolicyLearner.predict]; [y] is the network's output (n, K).  The result has one
    position whatever [len_list] is. *)
Definition nn_predict (n K : nat) (y : arr2) : res arr3 :=
  acts <- mapM (fun r => a <- np_argmax r ;; Ok (Z.of_nat a)) y ;;
  upd_cells (fun _ => Fin 1) (zeros3 n K 1) acts 0.

(** offline.py 1431-1440: [NNPolicyLearner.predict_proba]. *)
Definition nn_predict_proba (y : arr2) : arr3 := map (map (fun v => [v])) y.

(** offline.py 1386-1401: [NNPolicyLearner.sample_action]: the scores are the choice probabilities. *)
Definition nn_sample_action (argsort : list num -> list nat) (n K L : nat) (y : arr2) (tau : num)
    (gumbel : arr2) : res arr3 :=
  sample_ranking argsort n K L (nn_predict_proba y) tau gumbel.

(** ** NNPolicyLearner: objective and training loop *)

(** Models: policy/offline.py 1227-1280 (off_policy_objective). *)
Inductive objective := Dm | Ipw | Dr | Snipw | IpwOs | IpwSubgauss.

(** offline.py 799-828: the hyper-parameter [lambda_]. *)
Definition nn_lambda (o : objective) (lambda : option num) : res num :=
  match o with
  | IpwSubgauss => let l := match lambda with Some l => l | None => Fin (1 / 1000) end in
                   check_scalar l (Some (Fin 0)) (Some (Fin 1)) ;;; Ok l
  | Snipw => let l := match lambda with Some l => l | None => Fin 0 end in
             check_scalar l (Some (Fin 0)) None ;;; Ok l
  | IpwOs => let l := match lambda with Some l => l | None => Fin 10000 end in
             check_scalar l (Some (Fin 0)) None ;;; Ok l
  | _ => Ok (match lambda with Some l => l | None => NaN end)
  end.

(** [x[idx_tensor, action]] *)
(** Models: policy/offline.py 1246, 1254, 1261, 1266, 1273, 1302. *)
Definition pick (x : arr2) (action : list Z) : res arr1 :=
  ia <- bcast2_idx x action ;; mapM (fun q => np_get (fst q) (snd q)) ia.

(** [torch.sum(q_hat * current_pi * log_prob, dim=1)] *)
(** Models: policy/offline.py 1249-1258. *)
Definition dm_term (q_hat pi log_prob : arr2) : arr1 :=
  map (fun t => nsum (map (fun u => nmul (nmul (fst (fst u)) (snd (fst u))) (snd u))
                          (combine (combine (fst (fst t)) (snd (fst t))) (snd t))))
      (combine (combine q_hat pi) log_prob).

(** offline.py 1235-1279: [_estimate_policy_gradient].  [pi] is [action_dist[:, :, 0].detach()], a constant for
    the differentiation, and [live] is [action_dist[:, :, 0]]; [fit] calls it with the same values for both. *)
Definition policy_grad_arr (o : objective) (lambda : num) (q_hat pi live : arr2) (action : list Z)
    (reward pscore : arr1) : res arr1 :=
  let log_prob := map (map nlog) live in
  let weighted (f : num -> num) (r : arr1) :=
    pa <- pick pi action ;;
    iw <- bcast2 ndiv pa pscore ;;
    c <- bcast2 nmul (map f iw) r ;;
    la <- pick log_prob action ;;
    bcast2 nmul c la in
  match o with
  | Dm => Ok (dm_term q_hat pi log_prob)
  | Ipw => weighted (fun w => w) reward
  | Dr =>
      qa <- pick q_hat action ;;
      d <- bcast2 nsub reward qa ;;
      e <- weighted (fun w => w) d ;;
      bcast2 nadd e (dm_term q_hat pi log_prob)
  | Snipw => weighted (fun w => w) (map (fun r => nsub r lambda) reward)
  | IpwOs =>
      weighted (fun w => nmul (ndiv (nsub lambda (nsqr w)) (nsqr (nadd (nsqr w) lambda))) (nmul lambda w)) reward
  | IpwSubgauss =>
      weighted (fun w => ndiv (nmul (nsub (Fin 1) lambda) w)
                              (nsqr (nadd (nsub (Fin 1) lambda) (nmul lambda w)))) reward
  end.

(** offline.py 1301-1304: [_estimate_policy_constraint]. *)
Definition policy_constraint (live : arr2) (action : list Z) (pscore : arr1) : res num :=
  pa <- pick live action ;; iw <- bcast2 ndiv pa pscore ;; Ok (nlog (nmean iw)).

(** [torch.var(x)]: the unbiased variance (division by n - 1). *)
(** Models: policy/offline.py 1157, 1190. *)
Definition torch_var (x : arr1) : num :=
  ndiv (nsum (map (fun v => nsqr (nsub v (nmean x))) x)) (Fin (INR (length x) - 1)).

(** offline.py 1141-1157, 1174-1190: the loss of one batch. *)
Definition nn_loss (o : objective) (lambda policy_reg var_reg : num) (q_hat pi live : arr2) (action : list Z)
    (reward pscore : arr1) : res num :=
  g <- policy_grad_arr o lambda q_hat pi live action reward pscore ;;
  c <- policy_constraint live action pscore ;;
  Ok (nadd (nadd (nopp (nmean g)) (nmul policy_reg c)) (nmul var_reg (torch_var g))).

(** offline.py 990-994, 1004-1013: batch size, and sizes of the training and validation parts
    ([validation_fraction] finite: [int()] truncates). *)
Definition batch_size_ (batch_size : option Z) (n : nat) : res Z :=
  match batch_size with
  | None => Ok (Z.min 200 (Z.of_nat n))
  | Some b => check_scalar_Z b (Some 1%Z) None ;;; Ok b
  end.
Definition split_sizes (early_stopping : bool) (n : nat) (validation_fraction : R) : res (Z * Z) :=
  if early_stopping then
    raise_if (Nat.leb n 1) ValueError ;;;
    let v := Z.max (Int_part (INR n * validation_fraction)) 1 in
    Ok ((Z.of_nat n - v)%Z, v)
  else Ok (Z.of_nat n, 0%Z).

(** offline.py 1161-1169 / 1191-1199 (and 1813-1821, 1830-1838; offline_continuous.py 490-498, 512-520, 997-1005,
    1012-1020): the
    counter of consecutive batches whose loss did not improve on the previous one, after one more loss value. *)
Definition not_improving (tol loss : num) (counter : Z) (previous : option num) : Z :=
  match previous with
  | None => counter
  | Some p => if nlt (nsub loss p) tol then (counter + 1)%Z else 0%Z
  end.

Section Training.
  Variables (P B : Type).
  (** One optimizer step on a batch: new parameters and the loss before the step. *)
  Variable step : P -> B -> P * num.
  (** Loss of a validation batch at given parameters. *)
  Variable vloss : P -> B -> num.
  Variables (tol : num) (n_iter_no_change : Z).

  Record train_state := mkTrain {
    ts_params : P;
    ts_counter : Z;                  (* n_not_improving_training *)
    ts_previous : option num;        (* previous_training_loss *)
    ts_vcounter : Z;                 (* n_not_improving_validation *)
    ts_vprevious : option num        (* previous_validation_loss *)
  }.

  (** offline.py 1139-1169: the loop over the batches of one epoch. *)
  Fixpoint train_batches (batches : list B) (s : train_state) : train_state :=
    match batches with
    | [] => s
    | b :: r =>
        let '(params, loss) := step (ts_params s) b in
        let c := not_improving tol loss (ts_counter s) (ts_previous s) in
        if Z.leb n_iter_no_change c
        then mkTrain params c (ts_previous s) (ts_vcounter s) (ts_vprevious s)
        else train_batches r (mkTrain params c (Some loss) (ts_vcounter s) (ts_vprevious s))
    end.

  (** offline.py 1173-1199: the loop over the validation batches. *)
  Fixpoint validate (batches : list B) (s : train_state) : train_state :=
    match batches with
    | [] => s
    | b :: r =>
        let loss := vloss (ts_params s) b in
        let c := not_improving tol loss (ts_vcounter s) (ts_vprevious s) in
        let s' prev := mkTrain (ts_params s) (ts_counter s) (ts_previous s) c prev in
        if Z.ltb n_iter_no_change c then s' (ts_vprevious s) else validate r (s' (Some loss))
    end.

  (** offline.py 1133-1199: the epochs; each has its (shuffled) training and validation batches. *)
  Definition fit_loop (early_stopping : bool) (epochs : list (list B * list B)) (params : P) : train_state :=
    fold_left (fun s e => let s' := train_batches (fst e) s in
                          if early_stopping then validate (snd e) s' else s')
              epochs (mkTrain params 0 None 0 None).
End Training.
Arguments mkTrain {P}.
Arguments ts_params {P}.
Arguments ts_counter {P}.
Arguments ts_previous {P}.
Arguments ts_vcounter {P}.
Arguments ts_vprevious {P}.
Arguments train_batches {P B}.
Arguments validate {P B}.
Arguments fit_loop {P B}.

(** ** NNPolicyLearnerForContinuousAction *)

(** Models: policy/offline_continuous.py 179. *)
Inductive pg_method := Dpg | PgIpw | PgDr.

(** offline_continuous.py 556-557 *)
Definition pg_gaussian_kernel (u : num) : num :=
  ndiv (nexp (ndiv (nopp (nsqr u)) (Fin 2))) (Fin (Rpower (2 * PI) (1 / 2))).

(** [torch.clamp(x, min=lo, max=hi)] and [np.clip]: the minimum with the upper bound of the maximum with the
    lower bound. *)
(** Models: policy/offline_continuous.py 560, 615. *)
Definition clamp (space : option (num * num)) (x : num) : num :=
  match space with None => x | Some (lo, hi) => nmin (nmax x lo) hi end.

(** offline_continuous.py 559-589: [_estimate_policy_gradient]; [q] gives the reward model's prediction for each
    round's chosen action. *)
Definition pg_arr (m : pg_method) (h : num) (space : option (num * num)) (q : arr1 -> arr1)
    (chosen action reward pscore : arr1) : res arr1 :=
  let a := map (clamp space) chosen in
  match m with
  | Dpg => Ok (q a)
  | PgIpw =>
      u <- kernel_arg h a action ;;
      kr <- bcast2 nmul (map pg_gaussian_kernel u) reward ;;
      e <- bcast2 ndiv kr pscore ;;
      Ok (map (fun x => ndiv x h) e)
  | PgDr =>
      u <- kernel_arg h a action ;;
      d <- bcast2 nsub reward (q a) ;;
      kr <- bcast2 nmul (map pg_gaussian_kernel u) d ;;
      e <- bcast2 ndiv kr pscore ;;
      bcast2 nadd (map (fun x => ndiv x h) e) (q a)
  end.

(** offline_continuous.py 481-487: the loss of a batch. *)
Definition pg_loss m h space q chosen action reward pscore : res num :=
  g <- pg_arr m h space q chosen action reward pscore ;; Ok (nopp (nmean g)).

(** offline_continuous.py 613-621: [predict]. *)
Definition pg_predict (space : option (num * num)) (y : arr1) : arr1 := map (clamp space) y.
