(** * M_Init: constructors on arbitrary Python arguments.

    Model of the [__post_init__] methods of obp/ope/estimators.py, obp/ope/estimators_multi.py,
    obp/ope/estimators_continuous.py, obp/ope/estimators_tuning.py, obp/policy/offline.py and
    obp/policy/offline_continuous.py, with dynamically typed arguments. *)

From Coq Require Import String Reals List ZArith Bool.
From Verif Require Import Num NpList M_Utils M_Tuning.
Import ListNotations.
Open Scope R_scope.

(** Python values that can be passed as hyper-parameters.  [VNpInt] and [VNpBool] are NumPy integers and
    booleans (not instances of [int] or [bool]); NumPy floats are instances of [float] and belong to [VFloat].
    Arrays, which make [x in [...]] ambiguous, are left out.
    Models: offline.py 755-778, offline_continuous.py 150-174. *)
Inductive pyv : Type :=
| VNone | VBool (b : bool) | VInt (z : Z) | VFloat (x : num) | VStr (s : string)
| VTuple (l : list pyv) | VList (l : list pyv) | VDict (d : list (string * pyv))
| VNpInt (z : Z) | VNpBool (b : bool) | VRandomState | VOther.

(** [isinstance(v, int)], [isinstance(v, float)], [isinstance(v, (int, float))], [isinstance(v, bool)];
    [bool] is a subclass of [int].  Models: estimators.py 924-935. *)
Definition is_int (v : pyv) : bool := match v with VInt _ | VBool _ => true | _ => false end.
(** Models: offline.py 841, 854. *)
Definition is_float (v : pyv) : bool := match v with VFloat _ => true | _ => false end.
(** Models: estimators.py 927. *)
Definition is_number (v : pyv) : bool := is_int v || is_float v.
(** Models: estimators.py 932. *)
Definition is_bool (v : pyv) : bool := match v with VBool _ => true | _ => false end.

(** The float a number compares as (only called on numbers).  Models: estimators.py 928, offline.py 856. *)
Definition num_of (v : pyv) : num :=
  match v with
  | VBool b => Fin (if b then 1 else 0)
  | VInt z | VNpInt z => Fin (IZR z)
  | VFloat x => x
  | _ => NaN
  end.

(** sklearn's [check_scalar] with a type test.  Models: estimators.py 924-929. *)
Definition check_scalar_v (v : pyv) (ty : pyv -> bool) (min_val max_val : option num) : res unit :=
  raise_if (negb (ty v)) TypeError ;;;
  check_scalar (num_of v) min_val max_val.

(** [v == "s"].  Models: offline.py 847. *)
Definition is_str (s : string) (v : pyv) : bool := match v with VStr t => String.eqb t s | _ => false end.
(** [v in [...]] for a list of strings.  Models: offline.py 786-793. *)
Definition in_strs (l : list string) (v : pyv) : bool := existsb (fun s => is_str s v) l.

(** ** Estimators *)

(** [lambda_] and [use_estimated_pscore] of the importance-weighting estimators.  [max_val] is [None], or [1]
    for the sub-Gaussian ones.
    Models: estimators.py 280-293, 924-935, 1410-1421, 1615-1626, 1820-1832, 2004-2016;
    estimators_multi.py 91-102, 363-374, 921-932, 1231-1242. *)
Definition est_init (max_val : option num) (lam use_est : pyv) : res num :=
  check_scalar_v lam is_number (Some (Fin 0)) max_val ;;;
  raise_if (negb (neqb (num_of lam) (num_of lam))) ValueError ;;;
  raise_if (negb (is_bool use_est)) TypeError ;;;
  Ok (num_of lam).

(** [BalancedInverseProbabilityWeighting] checks [lambda_] only.  Models: estimators.py 2212-2219. *)
Definition bipw_init (lam : pyv) : res num :=
  check_scalar_v lam is_number (Some (Fin 0)) None ;;;
  raise_if (negb (neqb (num_of lam) (num_of lam))) ValueError ;;;
  Ok (num_of lam).

(** Models: estimators_continuous.py 118-125, 337-343, 562-568. *)
Definition kernel_init (kernel bandwidth : pyv) : res num :=
  raise_if (negb (in_strs ["gaussian"; "epanechnikov"; "triangular"; "cosine"]%string kernel)) ValueError ;;;
  check_scalar_v bandwidth is_number (Some (Fin 0)) None ;;;
  Ok (num_of bandwidth).

(** Models: estimators_tuning.py 80-96. *)
Definition check_lambdas_v (max_val : num) (lambdas : pyv) : res (list num) :=
  match lambdas with
  | VList [] => Err ValueError
  | VList l =>
      mapM (fun h =>
              check_scalar_v h is_number (Some (Fin 0)) (Some max_val) ;;;
              raise_if (negb (neqb (num_of h) (num_of h))) ValueError ;;;
              Ok (num_of h)) l
  | _ => Err TypeError
  end.

(** Models: estimators_tuning.py 98-114. *)
Definition check_init_inputs_v (tuning_method bound delta use_est : pyv) : res unit :=
  raise_if (negb (in_strs ["slope"; "mse"]%string tuning_method)) ValueError ;;;
  raise_if (negb (is_bool bound)) TypeError ;;;
  check_scalar_v delta is_float (Some (Fin 0)) (Some (Fin 1)) ;;;
  raise_if (negb (is_bool use_est)) TypeError.

(** The tuned estimators; the result is [self.lambdas] after sorting.
    Models: estimators_tuning.py 417-422, 617-622, 837-842, 1057-1062, 1286-1291, 1485-1490. *)
Definition tuning_init (t : tuned) (lambdas tuning_method bound delta use_est : pyv) : res (list num) :=
  ls <- check_lambdas_v (match t with T_SGIPW | T_SGDR => Fin 1 | _ => PInf end) lambdas ;;
  check_init_inputs_v tuning_method bound delta use_est ;;;
  Ok (sort_lambdas t ls).

(** ** Neural-network learners *)

(** The fields common to the four network classes.
    Models: offline.py 760-777, 1548-1564; offline_continuous.py 154-174, 731-747. *)
Record net_params : Type := mkNet {
  np_hidden : pyv; np_activation : pyv; np_solver : pyv; np_alpha : pyv; np_batch : pyv; np_lr : pyv;
  np_max_iter : pyv; np_shuffle : pyv; np_random_state : pyv; np_tol : pyv; np_momentum : pyv; np_nesterov : pyv;
  np_early : pyv; np_valfrac : pyv; np_beta1 : pyv; np_beta2 : pyv; np_eps : pyv; np_no_change : pyv
}.

(** Defaults; [max_iter] is 200 for the discrete classes and 100 for the continuous ones.
    Models: offline.py 760-777, 1548-1564; offline_continuous.py 154-174, 731-747. *)
Definition net_defaults (max_iter : Z) : net_params :=
  mkNet (VTuple [VInt 100]) (VStr "relu") (VStr "adam") (VFloat (Fin (1/10000))) (VStr "auto") (VFloat (Fin (1/10000)))
    (VInt max_iter) (VBool true) VNone (VFloat (Fin (1/10000))) (VFloat (Fin (9/10))) (VBool true)
    (VBool false) (VFloat (Fin (1/10))) (VFloat (Fin (9/10))) (VFloat (Fin (999/1000))) (VFloat (Fin (1/100000000))) (VInt 10).

(** [check_random_state(s); torch.manual_seed(s)] for a seed that is not None: sklearn accepts integers (NumPy
    rejects those outside [0, 2^32)) and RandomState objects, torch only integers.
    Models: offline.py 908-910, 1634-1636. *)
Definition check_seed (s : pyv) : res unit :=
  match s with
  | VNone => Ok tt
  | VInt z | VNpInt z => raise_if (Z.ltb z 0 || Z.leb (2 ^ 32) z) ValueError
  | VBool _ => Ok tt
  | VRandomState => Err TypeError
  | _ => Err ValueError
  end.

(** Activation layers.  Models: offline.py 912-926, 1638-1652. *)
Inductive activation : Type := AIdentity | ALogistic | ATanh | ARelu | AElu.
(** Models: offline.py 912-926, 1638-1652; offline_continuous.py 268-281, 822-836. *)
Definition activation_of (v : pyv) : res activation :=
  if is_str "identity" v then Ok AIdentity
  else if is_str "logistic" v then Ok ALogistic
  else if is_str "tanh" v then Ok ATanh
  else if is_str "relu" v then Ok ARelu
  else if is_str "elu" v then Ok AElu
  else Err ValueError.

(** [not isinstance(h, tuple) or any([not isinstance(h_, int) or h_ <= 0 ...])]; the sizes on success.
    Models: offline.py 834-839, 1570-1575; offline_continuous.py 200-205, 753-758. *)
Definition hidden_sizes (v : pyv) : res (list Z) :=
  match v with
  | VTuple l =>
      mapM (fun h => match h with
                     | VInt z => if Z.leb z 0 then Err ValueError else Ok z
                     | VBool b => if b then Ok 1%Z else Err ValueError
                     | _ => Err ValueError
                     end) l
  | _ => Err ValueError
  end.

(** Models: offline.py 846-851, 1584-1589; offline_continuous.py 213-219, 766-772. *)
Definition batch_ok (v : pyv) : bool :=
  is_str "auto" v || (is_int v && negb (nle (num_of v) (Fin 0))).

(** The checks of the common fields up to the optimiser's parameters, in the order of the code.
    Models: offline.py 834-892, 1570-1628; offline_continuous.py 200-259, 753-812. *)
Definition net_checks (c : net_params) : res (list Z) :=
  hs <- hidden_sizes (np_hidden c) ;;
  raise_if (negb (in_strs ["adagrad"; "sgd"; "adam"]%string (np_solver c))) ValueError ;;;
  check_scalar_v (np_alpha c) is_float (Some (Fin 0)) None ;;;
  raise_if (negb (batch_ok (np_batch c))) ValueError ;;;
  check_scalar_v (np_lr c) is_float None None ;;;
  raise_if (nle (num_of (np_lr c)) (Fin 0)) ValueError ;;;
  check_scalar_v (np_max_iter c) is_int (Some (Fin 1)) None ;;;
  raise_if (negb (is_bool (np_shuffle c))) ValueError ;;;
  check_scalar_v (np_tol c) is_float None None ;;;
  raise_if (nle (num_of (np_tol c)) (Fin 0)) ValueError ;;;
  check_scalar_v (np_momentum c) is_float (Some (Fin 0)) (Some (Fin 1)) ;;;
  raise_if (negb (is_bool (np_nesterov c))) ValueError ;;;
  raise_if (negb (is_bool (np_early c))) ValueError ;;;
  check_scalar_v (np_valfrac c) is_float None (Some (Fin 1)) ;;;
  raise_if (nle (num_of (np_valfrac c)) (Fin 0)) ValueError ;;;
  Ok hs.

(** Models: offline.py 903-906, 1629-1632; offline_continuous.py 245-248, 813-816. *)
Definition net_checks_adam (c : net_params) : res unit :=
  check_scalar_v (np_beta1 c) is_float (Some (Fin 0)) (Some (Fin 1)) ;;;
  check_scalar_v (np_beta2 c) is_float (Some (Fin 0)) (Some (Fin 1)) ;;;
  check_scalar_v (np_eps c) is_float (Some (Fin 0)) None ;;;
  check_scalar_v (np_no_change c) is_int (Some (Fin 1)) None.

(** The network that is built: the (input, output) sizes of its linear layers, an activation after each but the
    last, and whether a softmax follows.  Booleans used as sizes count as 0 and 1.
    Models: offline.py 928-940, 1654-1660. *)
Record arch : Type := mkArch { ar_layers : list (Z * Z); ar_act : activation; ar_softmax : bool }.

(** The loop over [hidden_layer_size].  Models: offline.py 930-937, 1656-1660; offline_continuous.py 284-292, 838-843. *)
Fixpoint linear_layers (input : Z) (hidden : list Z) (output : Z) : list (Z * Z) :=
  match hidden with
  | [] => [(input, output)]
  | h :: r => (input, h) :: linear_layers h r output
  end.

(** An integer argument as a size.  Models: offline.py 929. *)
Definition int_of (v : pyv) : Z := match v with VInt z => z | VBool true => 1%Z | _ => 0%Z end.

(** [QFuncEstimator.__post_init__]; [n_actions] is not checked by it, and is passed as a size already.
    Models: offline.py 1566-1660. *)
Definition qfunc_init (n_actions : Z) (dim_context : pyv) (c : net_params) : res arch :=
  check_scalar_v dim_context is_int (Some (Fin 1)) None ;;;
  hs <- net_checks c ;;
  net_checks_adam c ;;;
  check_seed (np_random_state c) ;;;
  act <- activation_of (np_activation c) ;;
  Ok (mkArch (linear_layers (int_of dim_context) hs n_actions) act false).

(** [QFuncEstimatorForContinuousAction.__post_init__]: the action is one more input.
    Models: offline_continuous.py 749-843. *)
Definition qfunc_cont_init (dim_context : pyv) (c : net_params) : res arch :=
  check_scalar_v dim_context is_int (Some (Fin 1)) None ;;;
  hs <- net_checks c ;;
  net_checks_adam c ;;;
  check_seed (np_random_state c) ;;;
  act <- activation_of (np_activation c) ;;
  Ok (mkArch (linear_layers (int_of dim_context + 1) hs 1) act false).

(** Keyword arguments: one dictionary entry replaces one field; unknown names are a TypeError.
    Models: offline.py 945-949, offline_continuous.py 296-300. *)
Definition set_field (c : net_params) (kv : string * pyv) : res net_params :=
  let '(mkNet hi ac so al ba lr mi sh rs to mo ne ea vf b1 b2 ep nc) := c in
  let v := snd kv in
  let k := fst kv in
  if String.eqb k "hidden_layer_size" then Ok (mkNet v ac so al ba lr mi sh rs to mo ne ea vf b1 b2 ep nc)
  else if String.eqb k "activation" then Ok (mkNet hi v so al ba lr mi sh rs to mo ne ea vf b1 b2 ep nc)
  else if String.eqb k "solver" then Ok (mkNet hi ac v al ba lr mi sh rs to mo ne ea vf b1 b2 ep nc)
  else if String.eqb k "alpha" then Ok (mkNet hi ac so v ba lr mi sh rs to mo ne ea vf b1 b2 ep nc)
  else if String.eqb k "batch_size" then Ok (mkNet hi ac so al v lr mi sh rs to mo ne ea vf b1 b2 ep nc)
  else if String.eqb k "learning_rate_init" then Ok (mkNet hi ac so al ba v mi sh rs to mo ne ea vf b1 b2 ep nc)
  else if String.eqb k "max_iter" then Ok (mkNet hi ac so al ba lr v sh rs to mo ne ea vf b1 b2 ep nc)
  else if String.eqb k "shuffle" then Ok (mkNet hi ac so al ba lr mi v rs to mo ne ea vf b1 b2 ep nc)
  else if String.eqb k "random_state" then Ok (mkNet hi ac so al ba lr mi sh v to mo ne ea vf b1 b2 ep nc)
  else if String.eqb k "tol" then Ok (mkNet hi ac so al ba lr mi sh rs v mo ne ea vf b1 b2 ep nc)
  else if String.eqb k "momentum" then Ok (mkNet hi ac so al ba lr mi sh rs to v ne ea vf b1 b2 ep nc)
  else if String.eqb k "nesterovs_momentum" then Ok (mkNet hi ac so al ba lr mi sh rs to mo v ea vf b1 b2 ep nc)
  else if String.eqb k "early_stopping" then Ok (mkNet hi ac so al ba lr mi sh rs to mo ne v vf b1 b2 ep nc)
  else if String.eqb k "validation_fraction" then Ok (mkNet hi ac so al ba lr mi sh rs to mo ne ea v b1 b2 ep nc)
  else if String.eqb k "beta_1" then Ok (mkNet hi ac so al ba lr mi sh rs to mo ne ea vf v b2 ep nc)
  else if String.eqb k "beta_2" then Ok (mkNet hi ac so al ba lr mi sh rs to mo ne ea vf b1 v ep nc)
  else if String.eqb k "epsilon" then Ok (mkNet hi ac so al ba lr mi sh rs to mo ne ea vf b1 b2 v nc)
  else if String.eqb k "n_iter_no_change" then Ok (mkNet hi ac so al ba lr mi sh rs to mo ne ea vf b1 b2 ep v)
  else Err TypeError.

(** [QFuncEstimator( **hyperparams )] once "n_actions" and "dim_context" have been overwritten: entries with these
    names are ignored.  Models: offline.py 942-953, offline_continuous.py 294-304. *)
Fixpoint with_kwargs (own : list string) (c : net_params) (d : list (string * pyv)) : res net_params :=
  match d with
  | [] => Ok c
  | kv :: r =>
      c' <- (if existsb (String.eqb (fst kv)) own then Ok c else set_field c kv) ;;
      with_kwargs own c' r
  end.

(** Models: offline.py 894-902, offline_continuous.py 250-255. *)
Definition check_hyperparams (v : pyv) : res (option (list (string * pyv))) :=
  match v with VNone => Ok None | VDict d => Ok (Some d) | _ => Err ValueError end.

(** [lambda_] of [NNPolicyLearner] by objective (None is replaced by the default).  Models: offline.py 799-818. *)
Definition nn_lambda_v (objective lam : pyv) : res (option num) :=
  let given d := match lam with VNone => VFloat (Fin d) | _ => lam end in
  if is_str "ipw-subgauss" objective then
    check_scalar_v (given (1/1000)) is_number (Some (Fin 0)) (Some (Fin 1)) ;;; Ok (Some (num_of (given (1/1000))))
  else if is_str "snipw" objective then
    check_scalar_v (given 0) is_number (Some (Fin 0)) None ;;; Ok (Some (num_of (given 0)))
  else if is_str "ipw-os" objective then
    check_scalar_v (given 10000) is_number (Some (Fin 0)) None ;;; Ok (Some (num_of (given 10000)))
  else Ok None.

(** [NNPolicyLearner.__post_init__]: the policy network, the [lambda_] in use and, for 'dr' and 'dm', the network of
    the reward model.  Models: offline.py 780-953 and base.py 163-168. *)
Definition nn_learner_init (n_actions len_list dim_context objective lam policy_reg var_reg hyper : pyv) (c : net_params)
  : res (arch * option num * option arch) :=
  check_scalar_v n_actions is_int (Some (Fin 2)) None ;;;
  check_scalar_v len_list is_int (Some (Fin 1)) (Some (num_of n_actions)) ;;;
  check_scalar_v dim_context is_int (Some (Fin 1)) None ;;;
  raise_if (negb (in_strs ["dm"; "ipw"; "dr"; "snipw"; "ipw-os"; "ipw-subgauss"]%string objective)) ValueError ;;;
  l <- nn_lambda_v objective lam ;;
  check_scalar_v policy_reg is_number (Some (Fin 0)) None ;;;
  check_scalar_v var_reg is_number (Some (Fin 0)) None ;;;
  hs <- net_checks c ;;
  d <- check_hyperparams hyper ;;
  net_checks_adam c ;;;
  check_seed (np_random_state c) ;;;
  act <- activation_of (np_activation c) ;;
  let net := mkArch (linear_layers (int_of dim_context) hs (int_of n_actions)) act true in
  if in_strs ["dr"; "dm"]%string objective then
    cq <- with_kwargs ["n_actions"; "dim_context"]%string (net_defaults 200) (match d with Some d => d | None => [] end) ;;
    q <- qfunc_init (int_of n_actions) dim_context cq ;;
    Ok (net, l, Some q)
  else Ok (net, l, None).

(** [output_space]: any tuple of numbers, of any length.  Models: offline_continuous.py 192-198. *)
Definition space_ok (v : pyv) : bool :=
  match v with VNone => true | VTuple l => forallb is_number l | _ => false end.

(** [NNPolicyLearnerForContinuousAction.__post_init__].  Models: offline_continuous.py 176-304. *)
Definition cont_learner_init (dim_context pg_method bandwidth output_space hyper : pyv) (c : net_params)
  : res (arch * option arch) :=
  check_scalar_v dim_context is_int (Some (Fin 1)) None ;;;
  raise_if (negb (in_strs ["dpg"; "ipw"; "dr"]%string pg_method)) ValueError ;;;
  (if is_str "dpg" pg_method then Ok tt
   else check_scalar_v bandwidth is_number None None ;;; raise_if (nle (num_of bandwidth) (Fin 0)) ValueError) ;;;
  raise_if (negb (space_ok output_space)) ValueError ;;;
  hs <- net_checks c ;;
  net_checks_adam c ;;;
  d <- check_hyperparams hyper ;;
  check_seed (np_random_state c) ;;;
  act <- activation_of (np_activation c) ;;
  let net := mkArch (linear_layers (int_of dim_context) hs 1) act false in
  if is_str "ipw" pg_method then Ok (net, None)
  else
    cq <- with_kwargs ["dim_context"]%string (net_defaults 100) (match d with Some d => d | None => [] end) ;;
    q <- qfunc_cont_init dim_context cq ;;
    Ok (net, Some q).

(** ** Optimisers

    What the constructors of torch.optim require of the parameters [fit] passes: [0 <= lr], [0 <= eps], [0 <= weight_decay],
    [0 <= beta < 1], [0 <= momentum], and a positive momentum for Nesterov's method, else ValueError.
    Models: offline.py 1100-1126, 1762-1787; offline_continuous.py 441-466, 960-985. *)
Definition optimizer_ok (c : net_params) : res unit :=
  let at_least_0 v := nle (Fin 0) (num_of v) in
  let beta_ok v := nle (Fin 0) (num_of v) && nlt (num_of v) (Fin 1) in
  if is_str "sgd" (np_solver c) then
    raise_if (negb (at_least_0 (np_lr c) && at_least_0 (np_momentum c) && at_least_0 (np_alpha c))) ValueError ;;;
    raise_if (match np_nesterov c with VBool true => nle (num_of (np_momentum c)) (Fin 0) | _ => false end) ValueError
  else if is_str "adagrad" (np_solver c) then
    raise_if (negb (at_least_0 (np_lr c) && at_least_0 (np_alpha c) && at_least_0 (np_eps c))) ValueError
  else if is_str "adam" (np_solver c) then
    raise_if (negb (at_least_0 (np_lr c) && at_least_0 (np_eps c) && beta_ok (np_beta1 c) && beta_ok (np_beta2 c) && at_least_0 (np_alpha c)))
      ValueError
  else Err NotImplementedErr.
