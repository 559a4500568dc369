(** * M_Logistic: model of obp/policy/logistic.py.

    [minimize] (scipy's L-BFGS-B, 20 iterations) is a function argument: it receives the loss, the gradient
    and the starting point and returns an arbitrary vector.  [normal m s] is the value of
    [random_.normal(m, s, size=dim)].  The [random_] attributes themselves are not modelled. *)

From Coq Require Import Reals List ZArith Bool.
From Verif Require Import Num NpList M_Utils M_Slate M_Multi M_Embed M_Policy M_Linear.
Import ListNotations.
Open Scope R_scope.

(** Array operations: [x.dot(y)] of two vectors, [X.dot(w)] and [w.dot(X.T)] of a matrix with a vector,
    element-wise operations with equal lengths. *)
(** Models: policy/logistic.py 324-325, 332. *)
Definition vdot (x y : arr1) : res num :=
  if Nat.eqb (length x) (length y) then Ok (nsum (map (fun p => nmul (fst p) (snd p)) (combine x y)))
  else Err ValueError.
(** Models: policy/logistic.py 349-350, 358, 362. *)
Definition mat_dot (X : arr2) (w : arr1) : res arr1 := mapM (fun r => vdot r w) X.

(** logistic.py 305-318: [MiniBatchLogisticRegression] and its [__post_init__]. *)
Record mblr : Type := mkMblr { lr_alpha : num; lr_dim : nat; lr_m : arr1; lr_q : arr1 }.
Definition mblr_post_init (lambda_ alpha : num) (dim : nat) : mblr :=
  mkMblr alpha dim (repeat (Fin 0) dim) (map (fun x => nmul x lambda_) (repeat (Fin 1) dim)).

(** logistic.py 320-326: [loss]. *)
Definition lr_loss (o : mblr) (X : arr2) (y : arr1) (w : arr1) : res num :=
  diff <- bcast2 nsub w (lr_m o) ;;
  qd <- bcast2 nmul (lr_q o) diff ;;
  pen <- vdot qd diff ;;
  z <- mat_dot X w ;;
  t <- bcast2 nmul (map nopp y) z ;;
  Ok (nadd (nmul (Fin (1/2)) pen) (nsum (map (fun v => nlog (nadd (Fin 1) (nexp v))) t))).

(** logistic.py 328-333: [grad]; the j-th entry subtracts the sum over samples i of
    y_i X_ij / (1 + exp(y_i w.X_i)). *)
Definition lr_grad (o : mblr) (X : arr2) (y : arr1) (w : arr1) : res arr1 :=
  diff <- bcast2 nsub w (lr_m o) ;;
  qd <- bcast2 nmul (lr_q o) diff ;;
  z <- mat_dot X w ;;
  t <- bcast2 nmul y z ;;
  yXT <- mapM (fun col => bcast2 nmul y col) (transpose X) ;;
  yXT' <- mapM (fun row => bcast2 ndiv row (map (fun v => nadd (Fin 1) (nexp v)) t)) yXT ;;
  bcast2 nadd qd (map (fun row => nmul (Fin (-1)) (nsum row)) yXT').

(** logistic.py 349: [(1 + np.exp(1 + X.dot(m))) ** (-1)]. *)
Definition lr_P (X : arr2) (m : arr1) : res arr1 :=
  z <- mat_dot X m ;;
  Ok (map (fun v => ndiv (Fin 1) (nadd (Fin 1) (nexp (nadd (Fin 1) v)))) z).

(** logistic.py 339-350: [fit]. *)
Definition lr_fit (minimize : (arr1 -> res num) -> (arr1 -> res arr1) -> arr1 -> arr1)
    (o : mblr) (X : arr2) (y : arr1) : res mblr :=
  let m := minimize (lr_loss o X y) (lr_grad o X y) (lr_m o) in
  P <- lr_P X m ;;
  inc <- row_times (map (fun v => nmul v (nsub (Fin 1) v)) P) (map (map nsqr) X) ;;
  q <- bcast2 nadd (lr_q o) inc ;;
  Ok (mkMblr (lr_alpha o) (lr_dim o) m q).

(** logistic.py 352-354: [sd]. *)
Definition lr_sd (o : mblr) : arr1 := map (fun v => nmul (lr_alpha o) (ndiv (Fin 1) v)) (lr_q o).

(** utils.py 977-979: [sigmoid], element-wise on model numbers. *)
Definition nsigmoid (x : num) : num :=
  ndiv (nexp (nmin x (Fin 0))) (nadd (Fin 1) (nexp (nopp (nabs x)))).

(** logistic.py 356-358, 360-362: [predict_proba], [predict_proba_with_sampling]. *)
Definition lr_predict_proba (o : mblr) (X : arr2) : res arr1 :=
  z <- mat_dot X (lr_m o) ;; Ok (map nsigmoid z).
Definition lr_predict_proba_with_sampling (normal : arr1 -> arr1 -> arr1) (o : mblr) (X : arr2) : res arr1 :=
  z <- mat_dot X (normal (lr_m o) (lr_sd o)) ;; Ok (map nsigmoid z).

(** base.py 104-120 and logistic.py 47-71: attributes of a [BaseLogisticPolicy]. *)
Record logp : Type := mkLogp {
  lg_dim : nat;
  lg_n_actions : nat;
  lg_len_list : nat;
  lg_batch_size : nat;
  lg_n_trial : nat;
  lg_action_counts : list Z;
  lg_reward_lists : list (list num);
  lg_context_lists : list (list arr2);
  lg_models : list mblr }.

(** logistic.py 50-71: [BaseLogisticPolicy.__post_init__]. *)
Definition log_post_init (alpha_ lambda_ : num) (dim n_actions len_list batch_size : Z) : res logp :=
  contextual_checks dim n_actions len_list batch_size ;;;
  raise_if (nle alpha_ (Fin 0)) ValueError ;;;
  raise_if (nle lambda_ (Fin 0)) ValueError ;;;
  let d := Z.to_nat dim in
  let K := Z.to_nat n_actions in
  Ok (mkLogp d K (Z.to_nat len_list) (Z.to_nat batch_size) 0 (zzeros K) (repeat [] K) (repeat [] K)
        (repeat (mblr_post_init (nmul lambda_ (Fin 1)) (nmul alpha_ (Fin 1)) d) K)).

(** base.py 127-133: [initialize] leaves [model_list] alone. *)
Definition log_initialize (p : logp) : logp :=
  mkLogp (lg_dim p) (lg_n_actions p) (lg_len_list p) (lg_batch_size p) 0 (zzeros (lg_n_actions p))
         (repeat [] (lg_n_actions p)) (repeat [] (lg_n_actions p)) (lg_models p).

(** logistic.py 93-98: the loop over the models.  Every model that has pending observations is refitted;
    an exception leaves the models after the failing one unfitted. *)
Fixpoint fit_loop (minimize : (arr1 -> res num) -> (arr1 -> res arr1) -> arr1 -> arr1)
    (models : list mblr) (rewards : list (list num)) (contexts : list (list arr2))
  : list mblr * res unit :=
  match models, rewards, contexts with
  | o :: models', y :: rewards', Xs :: contexts' =>
      match y with
      | [] => let r := fit_loop minimize models' rewards' contexts' in (o :: fst r, snd r)
      | _ :: _ =>
          match lr_fit minimize o (concat Xs) y with
          | Err e => (models, Err e)
          | Ok o' => let r := fit_loop minimize models' rewards' contexts' in (o' :: fst r, snd r)
          end
      end
  | _, _, _ => (models, Ok tt)
  end.

(** logistic.py 73-100: [BaseLogisticPolicy.update_params]. *)
Definition log_update_params (minimize : (arr1 -> res num) -> (arr1 -> res arr1) -> arr1 -> arr1)
    (p : logp) (action : Z) (reward : num) (context : arr2) : logp * res unit :=
  let n_trial := S (lg_n_trial p) in
  let with_ ac rl cl ms := mkLogp (lg_dim p) (lg_n_actions p) (lg_len_list p) (lg_batch_size p) n_trial ac rl cl ms in
  match np_index (lg_n_actions p) action with
  | Err e => (with_ (lg_action_counts p) (lg_reward_lists p) (lg_context_lists p) (lg_models p), Err e)
  | Ok i =>
      let ac := set_nth (lg_action_counts p) i (nth i (lg_action_counts p) 0 + 1)%Z in
      let rl := set_nth (lg_reward_lists p) i (nth i (lg_reward_lists p) [] ++ [reward]) in
      let cl := set_nth (lg_context_lists p) i (nth i (lg_context_lists p) [] ++ [context]) in
      if Nat.eqb (n_trial mod lg_batch_size p) 0 then
        let r := fit_loop minimize (lg_models p) rl cl in
        match snd r with
        | Err e => (with_ ac rl cl (fst r), Err e)
        | Ok _ => (with_ ac (repeat [] (lg_n_actions p)) (repeat [] (lg_n_actions p)) (fst r), Ok tt)
        end
      else (with_ ac rl cl (lg_models p), Ok tt)
  end.

(** logistic.py 145-167: [LogisticEpsilonGreedy.select_action]. *)
Definition log_eg_select_action (argsort : list num -> list nat) (epsilon : num) (p : logp) (context : arr2)
    (u : R) (choice : list nat) : res (list nat) :=
  if nlt epsilon (Fin u) then
    theta <- mapM (fun o => lr_predict_proba o context) (lg_models p) ;;
    Ok (top_k argsort (lg_len_list p) (concat theta))
  else Ok choice.

(** logistic.py 234-239: [np.sqrt(np.sum((q ** (-1)) * (context ** 2)))] for one model. *)
Definition log_std (context : arr2) (o : mblr) : res num :=
  rows <- mapM (fun r => bcast2 nmul (map (ndiv (Fin 1)) (lr_q o)) (map nsqr r)) context ;;
  Ok (nsqrt (nsum (concat rows))).

(** logistic.py 217-241: [LogisticUCB.select_action]. *)
Definition log_ucb_select_action (argsort : list num -> list nat) (epsilon : num) (p : logp) (context : arr2)
  : res (list nat) :=
  theta <- mapM (fun o => lr_predict_proba o context) (lg_models p) ;;
  std <- mapM (log_std context) (lg_models p) ;;
  score <- bcast2 nadd (concat theta) (map (nmul epsilon) std) ;;
  Ok (top_k argsort (lg_len_list p) score).

(** logistic.py 285-302: [LogisticTS.select_action]; [normal i] is the draw of the i-th model. *)
Definition log_ts_select_action (argsort : list num -> list nat) (p : logp) (context : arr2)
    (normal : nat -> arr1 -> arr1 -> arr1) : res (list nat) :=
  theta <- mapM (fun io => lr_predict_proba_with_sampling (normal (fst io)) (snd io) context)
                (combine (seq 0 (length (lg_models p))) (lg_models p)) ;;
  Ok (top_k argsort (lg_len_list p) (concat theta)).
