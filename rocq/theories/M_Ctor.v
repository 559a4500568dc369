(** * M_Ctor: constructors of policies, learners, reward models, datasets and environments on arbitrary Python
    arguments.

    Model of the [__post_init__] methods of obp/policy/base.py, contextfree.py, linear.py, logistic.py, offline.py
    (IPWLearner, QLearner), obp/ope/regression_model.py, classification_model.py, regression_model_slate.py,
    obp/dataset/synthetic.py, synthetic_multi.py, synthetic_continuous.py, synthetic_embed.py, synthetic_slate.py,
    multiclass.py, real.py and obp/simulator/simulator.py, with dynamically typed arguments.  The constructors of
    M_Policy, M_Linear, M_Logistic and M_Reg, whose arguments are integers and floats by type, are called once the
    types have been checked. *)

From Coq Require Import String Reals List ZArith Bool.
From Verif Require Import Num NpList M_Utils M_Init M_Policy M_Linear M_Logistic M_Slate M_Multi M_Feedback M_Reg M_SlateData.
Import ListNotations.
Open Scope R_scope.

(** sklearn's [check_random_state]: None, an integer that NumPy accepts as a seed, or a RandomState.
    Models: policy/base.py 48, 116; dataset/synthetic.py 204; simulator/simulator.py 154. *)
Definition random_state_ok (s : pyv) : res unit :=
  match s with
  | VNone | VBool _ | VRandomState => Ok tt
  | VInt z | VNpInt z => raise_if (Z.ltb z 0 || Z.leb (2 ^ 32) z) ValueError
  | _ => Err ValueError
  end.

(** [if self.random_state is None: raise ValueError] before it.  Models: dataset/synthetic.py 202-204,
    synthetic_multi.py 181-183, synthetic_continuous.py 144-146; simulator/simulator.py 152-154,
    simulator/delay_sampler.py 29-32. *)
Definition random_state_given (s : pyv) : res unit :=
  match s with VNone => Err ValueError | _ => random_state_ok s end.

(** Truth value of an object.  Models: policy/contextfree.py 195, dataset/synthetic_slate.py 219. *)
Definition truthy (v : pyv) : bool :=
  match v with
  | VNone => false
  | VBool b | VNpBool b => b
  | VInt z | VNpInt z => negb (Z.eqb z 0)
  | VFloat x => negb (neqb x (Fin 0))
  | VStr s => negb (String.eqb s "")
  | VTuple l | VList l => negb (Nat.eqb (length l) 0)
  | VDict d => negb (Nat.eqb (length d) 0)
  | VRandomState | VOther => true
  end.

(** Whether an object can be a dictionary key.  Models: policy/contextfree.py 200. *)
Fixpoint hashable (v : pyv) : bool :=
  match v with
  | VList _ | VDict _ => false
  | VTuple l => (fix all (l : list pyv) := match l with [] => true | x :: r => hashable x && all r end) l
  | _ => true
  end.

(** ** Online policies *)

(** [BaseContextFreePolicy.__post_init__].  Models: policy/base.py 43-53. *)
Definition cf_ctor (n_actions len_list batch_size random_state : pyv) : res cfp :=
  check_scalar_v n_actions is_int (Some (Fin 2)) None ;;;
  check_scalar_v len_list is_int (Some (Fin 1)) (Some (num_of n_actions)) ;;;
  check_scalar_v batch_size is_int (Some (Fin 1)) None ;;;
  random_state_ok random_state ;;;
  cf_post_init (int_of n_actions) (int_of len_list) (int_of batch_size).

(** [EpsilonGreedy] and [Random].  Models: policy/contextfree.py 53-57. *)
Definition eg_ctor (epsilon n_actions len_list batch_size random_state : pyv) : res cfp :=
  check_scalar_v epsilon is_float (Some (Fin 0)) (Some (Fin 1)) ;;;
  cf_ctor n_actions len_list batch_size random_state.

(** [BernoulliTS]; [prior] is the content of conf/prior_bts.yaml; [alpha] and [beta] are arrays or None by type.
    Models: policy/contextfree.py 192-204. *)
Definition bts_ctor (prior : string -> option (arr1 * arr1)) (alpha beta : option arr1)
    (is_zozotown_prior campaign n_actions len_list batch_size random_state : pyv) : res (cfp * arr1 * arr1) :=
  p <- cf_ctor n_actions len_list batch_size random_state ;;
  if truthy is_zozotown_prior then
    match campaign with
    | VNone => Err PlainException
    | VStr c => match prior c with None => Err KeyError | Some ab => Ok (p, fst ab, snd ab) end
    | c => Err (if hashable c then KeyError else TypeError)
    end
  else
    Ok (p, match alpha with None => repeat (Fin 1) (cf_n_actions p) | Some a => a end,
           match beta with None => repeat (Fin 1) (cf_n_actions p) | Some b => b end).

(** [BaseContextualPolicy.__post_init__].  Models: policy/base.py 110-116. *)
Definition contextual_ctor (dim n_actions len_list batch_size random_state : pyv) : res unit :=
  check_scalar_v dim is_int (Some (Fin 1)) None ;;;
  check_scalar_v n_actions is_int (Some (Fin 2)) None ;;;
  check_scalar_v len_list is_int (Some (Fin 1)) (Some (num_of n_actions)) ;;;
  check_scalar_v batch_size is_int (Some (Fin 1)) None ;;;
  random_state_ok random_state.

(** [BaseLinPolicy], [LinTS].  Models: policy/linear.py 41-53, 269-273. *)
Definition lin_ctor (dim n_actions len_list batch_size random_state : pyv) : res linp :=
  contextual_ctor dim n_actions len_list batch_size random_state ;;;
  lin_post_init (int_of dim) (int_of n_actions) (int_of len_list) (int_of batch_size).
(** [LinEpsilonGreedy] ([ucb] = false) and [LinUCB].  Models: policy/linear.py 126-131, 202-207. *)
Definition lin_eps_ctor (ucb : bool) (epsilon dim n_actions len_list batch_size random_state : pyv) : res linp :=
  check_scalar_v epsilon is_float (Some (Fin 0)) (if ucb then None else Some (Fin 1)) ;;;
  lin_ctor dim n_actions len_list batch_size random_state.

(** [BaseLogisticPolicy], [LogisticTS].  Models: policy/logistic.py 50-71, 281-283. *)
Definition log_ctor (alpha_ lambda_ dim n_actions len_list batch_size random_state : pyv) : res logp :=
  contextual_ctor dim n_actions len_list batch_size random_state ;;;
  check_scalar_v alpha_ is_float None None ;;;
  raise_if (nle (num_of alpha_) (Fin 0)) ValueError ;;;
  check_scalar_v lambda_ is_float None None ;;;
  raise_if (nle (num_of lambda_) (Fin 0)) ValueError ;;;
  log_post_init (num_of alpha_) (num_of lambda_) (int_of dim) (int_of n_actions) (int_of len_list) (int_of batch_size).
(** [LogisticEpsilonGreedy] ([ucb] = false) and [LogisticUCB].  Models: policy/logistic.py 138-143, 210-215. *)
Definition log_eps_ctor (ucb : bool) (epsilon alpha_ lambda_ dim n_actions len_list batch_size random_state : pyv) : res logp :=
  check_scalar_v epsilon is_float (Some (Fin 0)) (if ucb then None else Some (Fin 1)) ;;;
  log_ctor alpha_ lambda_ dim n_actions len_list batch_size random_state.

(** ** Machine-learning models *)

(** What can be passed as an estimator: an instance of sklearn's BaseEstimator (a classifier or not), anything else
    with or without [_estimator_type == "classifier"] and with or without [get_params], or None.
    Models: ope/regression_model.py 78-81, policy/offline.py 67-71. *)
Inductive model_v : Type := MEstimator (classifier : bool) | MDuck (classifier has_params : bool) | MNone.
(** [isinstance(m, BaseEstimator)].  Models: ope/regression_model.py 78. *)
Definition is_estimator (m : model_v) : bool := match m with MEstimator _ => true | _ => false end.
(** [is_classifier(m)].  Models: policy/offline.py 70, dataset/multiclass.py 169, ope/regression_model_slate.py 71. *)
Definition is_classifier (m : model_v) : bool := match m with MEstimator c | MDuck c _ => c | MNone => false end.
(** [clone(m)]: the class of the copy; a TypeError without [get_params].  Estimators follow sklearn's conventions.
    Models: ope/regression_model.py 83-85, policy/offline.py 72-74. *)
Definition clone (m : model_v) : res model_v :=
  match m with MEstimator _ | MDuck _ true => Ok m | _ => Err TypeError end.

(** [RegressionModel]: its fields and its copies of the base model; [action_context] is an array or None by type.
    Models: ope/regression_model.py 67-87. *)
Definition reg_ctor (base_model : model_v) (n_actions len_list : pyv) (action_context : option arr2) (fitting_method : pyv)
    : res (reg_conf * list model_v) :=
  check_scalar_v n_actions is_int (Some (Fin 2)) None ;;;
  check_scalar_v len_list is_int (Some (Fin 1)) None ;;;
  raise_if (negb (in_strs ["normal"; "iw"; "mrdr"]%string fitting_method)) ValueError ;;;
  raise_if (negb (is_estimator base_model)) ValueError ;;;
  models <- mapM (fun _ => clone base_model) (seq 0 (Z.to_nat (int_of len_list))) ;;
  c <- reg_init (int_of n_actions) (int_of len_list) action_context
         (if is_str "normal" fitting_method then Normal else if is_str "iw" fitting_method then Iw else Mrdr) ;;
  Ok (c, models).

(** [SlateRegressionModel]: number of actions, slots, whether it is weighted, and its copies of the base model.
    Models: ope/regression_model_slate.py 56-74. *)
Definition slate_reg_ctor (base_model : model_v) (len_list n_unique_action fitting_method : pyv) : res (Z * Z * bool * list model_v) :=
  check_scalar_v n_unique_action is_int (Some (Fin 2)) None ;;;
  check_scalar_v len_list is_int (Some (Fin 1)) None ;;;
  raise_if (negb (in_strs ["normal"; "iw"]%string fitting_method)) ValueError ;;;
  raise_if (negb (is_estimator base_model)) ValueError ;;;
  raise_if (is_classifier base_model) ValueError ;;;
  models <- mapM (fun _ => clone base_model) (seq 0 (Z.to_nat (int_of len_list))) ;;
  Ok (int_of n_unique_action, int_of len_list, is_str "iw" fitting_method, models).

(** [MarginalizedInverseProbabilityWeighting] and its self-normalized version.
    Models: ope/estimators_embed.py 84-112. *)
Definition mipw_ctor (n_actions : pyv) (pi_a_x_e_estimator : model_v) (embedding_selection_method min_emb_dim delta : pyv) : res unit :=
  check_scalar_v n_actions is_int (Some (Fin 2)) None ;;;
  check_scalar_v min_emb_dim is_int (Some (Fin 1)) None ;;;
  check_scalar_v delta is_float (Some (Fin 0)) (Some (Fin 1)) ;;;
  raise_if (match embedding_selection_method with VNone => false | m => negb (in_strs ["exact"; "greedy"]%string m) end) ValueError ;;;
  raise_if (negb (is_classifier pi_a_x_e_estimator)) ValueError.

(** A copy of the base model, wrapped in [CalibratedClassifierCV] or not.
    Models: ope/classification_model.py 84-97, 439-451. *)
Definition calibrated_clone (calibration_cv : pyv) (m : model_v) : res (bool * model_v) :=
  c <- clone m ;; Ok (Z.ltb 1 (int_of calibration_cv), c).

(** [ImportanceWeightEstimator].  Models: ope/classification_model.py 68-99. *)
Definition iw_ctor (base_model : model_v) (n_actions len_list : pyv) (action_context : option arr2)
    (fitting_method calibration_cv : pyv) : res (iw_conf * list (bool * model_v)) :=
  check_scalar_v n_actions is_int (Some (Fin 2)) None ;;;
  check_scalar_v len_list is_int (Some (Fin 1)) None ;;;
  check_scalar_v calibration_cv is_int None None ;;;
  raise_if (negb (in_strs ["sample"; "raw"]%string fitting_method)) ValueError ;;;
  raise_if (negb (is_estimator base_model)) ValueError ;;;
  models <- mapM (fun _ => calibrated_clone calibration_cv base_model) (seq 0 (Z.to_nat (int_of len_list))) ;;
  c <- iw_init (int_of n_actions) (int_of len_list) action_context (if is_str "sample" fitting_method then Sample else Raw) ;;
  Ok (c, models).

(** [PropensityScoreEstimator].  Models: ope/classification_model.py 429-451. *)
Definition ps_ctor (base_model : model_v) (n_actions len_list calibration_cv : pyv) : res (Z * Z * list (bool * model_v)) :=
  check_scalar_v n_actions is_int (Some (Fin 2)) None ;;;
  check_scalar_v len_list is_int (Some (Fin 1)) None ;;;
  check_scalar_v calibration_cv is_int None None ;;;
  raise_if (negb (is_estimator base_model)) ValueError ;;;
  models <- mapM (fun _ => calibrated_clone calibration_cv base_model) (seq 0 (Z.to_nat (int_of len_list))) ;;
  Ok (int_of n_actions, int_of len_list, models).

(** [BaseOfflinePolicyLearner.__post_init__].  Models: policy/base.py 164-167. *)
Definition learner_ctor (n_actions len_list : pyv) : res unit :=
  check_scalar_v n_actions is_int (Some (Fin 2)) None ;;;
  check_scalar_v len_list is_int (Some (Fin 1)) (Some (num_of n_actions)).

(** [IPWLearner]; without a classifier it uses LogisticRegression.  Models: policy/offline.py 64-75. *)
Definition ipw_learner_ctor (n_actions len_list : pyv) (base_classifier : model_v) : res (Z * Z * list model_v) :=
  learner_ctor n_actions len_list ;;;
  m <- match base_classifier with
       | MNone => Ok (MEstimator true)
       | m => raise_if (negb (is_classifier m)) ValueError ;;; Ok m
       end ;;
  models <- mapM (fun _ => clone m) (seq 0 (Z.to_nat (int_of len_list))) ;;
  Ok (int_of n_actions, int_of len_list, models).

(** [QLearner]: its [RegressionModel].  Models: policy/offline.py 375-384. *)
Definition q_learner_ctor (n_actions len_list : pyv) (base_model : model_v) (fitting_method : pyv) : res (reg_conf * list model_v) :=
  learner_ctor n_actions len_list ;;;
  reg_ctor base_model n_actions len_list None fitting_method.

(** ** Datasets and environments *)

(** An [action_context]: None, an array with its number of dimensions and rows, or anything else.
    Models: dataset/synthetic.py 222-231, simulator/simulator.py 160-169. *)
Inductive array_v : Type := ANone | AArray (ndim rows : nat) | ANotArray.
(** Models: dataset/synthetic.py 222-231; dataset/synthetic_multi.py 219-229; simulator/simulator.py 160-169; utils.py 152-176. *)
Definition check_action_context (ac : array_v) (n_actions : Z) : res unit :=
  match ac with
  | ANone => Ok tt
  | ANotArray => Err ValueError
  | AArray ndim rows =>
      raise_if (negb (Nat.eqb ndim 2)) ValueError ;;; raise_if (negb (Z.eqb (Z.of_nat rows) n_actions)) ValueError
  end.

(** [RewardType(v)] for a string ([RewardType] members are not values of the model); is it binary?
    Models: dataset/synthetic.py 206-213, dataset/reward_type.py. *)
Definition reward_type_of (v : pyv) : res bool :=
  if is_str "binary" v then Ok true else if is_str "continuous" v then Ok false else Err ValueError.

(** The fields of a [SyntheticBanditDataset] that are numbers.  Models: dataset/synthetic.py 174-187. *)
Record synth_conf := mkSynthConf { sc_actions : Z; sc_dim : Z; sc_binary : bool; sc_std : num; sc_beta : num; sc_deficient : Z }.
(** [SyntheticBanditDataset.__post_init__].  Models: dataset/synthetic.py 189-231. *)
Definition synth_ctor (n_actions dim_context reward_type reward_std beta n_deficient : pyv) (action_context : array_v)
    (random_state : pyv) : res synth_conf :=
  check_scalar_v n_actions is_int (Some (Fin 2)) None ;;;
  check_scalar_v dim_context is_int (Some (Fin 1)) None ;;;
  check_scalar_v beta is_number None None ;;;
  check_scalar_v n_deficient is_int (Some (Fin 0)) (Some (Fin (IZR (int_of n_actions - 1)))) ;;;
  random_state_given random_state ;;;
  b <- reward_type_of reward_type ;;
  check_scalar_v reward_std is_number (Some (Fin 0)) None ;;;
  check_action_context action_context (int_of n_actions) ;;;
  Ok (mkSynthConf (int_of n_actions) (int_of dim_context) b (num_of reward_std) (num_of beta) (int_of n_deficient)).

(** A list of numbers, checked one by one.  Models: dataset/synthetic_multi.py 190-199. *)
Definition number_list (v : pyv) (min_val : option num) : res (list num) :=
  match v with
  | VList l => mapM (fun x => check_scalar_v x is_number min_val None ;;; Ok (num_of x)) l
  | _ => Err TypeError
  end.

(** [SyntheticMultiLoggersBanditDataset.__post_init__]: [betas] and the normalised [rhos]; [beta] is not checked.
    Models: dataset/synthetic_multi.py 167-233. *)
Definition multi_ctor (n_actions dim_context reward_type reward_std betas rhos n_deficient : pyv) (action_context : array_v)
    (random_state : pyv) : res (synth_conf * list num * list num) :=
  check_scalar_v n_actions is_int (Some (Fin 2)) None ;;;
  check_scalar_v dim_context is_int (Some (Fin 1)) None ;;;
  check_scalar_v n_deficient is_int (Some (Fin 0)) (Some (Fin (IZR (int_of n_actions - 1)))) ;;;
  random_state_given random_state ;;;
  bs <- number_list betas None ;;
  rs <- number_list rhos (Some (Fin 0)) ;;
  raise_if (negb (Nat.eqb (length bs) (length rs))) ValueError ;;;
  b <- reward_type_of reward_type ;;
  check_scalar_v reward_std is_number (Some (Fin 0)) None ;;;
  check_action_context action_context (int_of n_actions) ;;;
  Ok (mkSynthConf (int_of n_actions) (int_of dim_context) b (num_of reward_std) (Fin 1) (int_of n_deficient),
      bs, map (fun r => ndiv r (nsum rs)) rs).

(** [SyntheticContinuousBanditDataset.__post_init__]: the dimension and the interval of actions.
    Models: dataset/synthetic_continuous.py 125-146. *)
Definition cont_ctor (dim_context action_noise reward_noise min_action max_action random_state : pyv) : res (Z * num * num) :=
  check_scalar_v dim_context is_int (Some (Fin 1)) None ;;;
  check_scalar_v action_noise is_number (Some (Fin 0)) None ;;;
  check_scalar_v reward_noise is_number (Some (Fin 0)) None ;;;
  check_scalar_v min_action is_number None None ;;;
  check_scalar_v max_action is_number None None ;;;
  raise_if (nle (num_of max_action) (num_of min_action)) ValueError ;;;
  random_state_given random_state ;;;
  Ok (int_of dim_context, num_of min_action, num_of max_action).

(** [self.random_state + d]: the seed of [check_random_state] in [sample_action_fast]; a RandomState cannot be added
    (NumPy integers of 64 unsigned bits, which become floats, are left out).
    Models: dataset/synthetic_embed.py 247, utils.py 109. *)
Definition shifted_seed (s : pyv) (d : nat) : res unit :=
  match s with
  | VInt z | VNpInt z => random_state_ok (VInt (z + Z.of_nat d))
  | VBool b => random_state_ok (VInt ((if b then 1 else 0) + Z.of_nat d))
  | _ => Err TypeError
  end.

(** The numbers of categories and dimensions of a [SyntheticBanditDatasetWithActionEmbeds] after construction.
    Models: dataset/synthetic_embed.py 221-223. *)
Record embed_sizes := mkEmbedSizes { ez_cat : Z; ez_latent : Z; ez_dim : Z; ez_hidden : Z; ez_irrelevant : Z }.
(** [SyntheticBanditDatasetWithActionEmbeds.__post_init__] and the seeds of [_define_action_embed].
    Models: dataset/synthetic_embed.py 200-248. *)
Definition embed_ctor (n_actions dim_context reward_type reward_std beta n_deficient : pyv) (action_context : array_v)
    (random_state n_cat_per_dim latent_dim n_cat_dim p_e_a_std n_unobserved n_irrelevant : pyv) : res (synth_conf * embed_sizes) :=
  c <- synth_ctor n_actions dim_context reward_type reward_std beta n_deficient action_context random_state ;;
  check_scalar_v n_cat_per_dim is_int (Some (Fin 1)) None ;;;
  check_scalar_v latent_dim is_int (Some (Fin 1)) None ;;;
  check_scalar_v n_cat_dim is_int (Some (Fin 1)) None ;;;
  check_scalar_v p_e_a_std is_number (Some (Fin 0)) None ;;;
  check_scalar_v n_unobserved is_int (Some (Fin 0)) (Some (num_of n_cat_dim)) ;;;
  check_scalar_v n_irrelevant is_int (Some (Fin 0)) (Some (num_of n_cat_dim)) ;;;
  mapM (fun d => shifted_seed random_state d) (seq 0 (Z.to_nat (int_of n_cat_dim + 1))) ;;;
  Ok (c, mkEmbedSizes (int_of n_cat_per_dim) (int_of latent_dim) (int_of n_cat_dim + 1) (int_of n_unobserved + 1) (int_of n_irrelevant + 1)).

(** The fields of a [SyntheticSlateBanditDataset].  Models: dataset/synthetic_slate.py 198-214. *)
Record slate_conf := mkSlateConf { lc_actions : Z; lc_len : Z; lc_dim : Z; lc_binary : bool; lc_structure : structure;
  lc_exponential : bool; lc_click : option (string * num); lc_fact : bool }.
(** [SyntheticSlateBanditDataset.__post_init__]; [random_state] may be None.  Models: dataset/synthetic_slate.py 216-308. *)
Definition slate_ctor (n_unique_action len_list dim_context reward_type reward_structure decay_function click_model eta
    is_factorizable random_state : pyv) : res slate_conf :=
  check_scalar_v n_unique_action is_int (Some (Fin 2)) None ;;;
  check_scalar_v len_list is_int (Some (Fin 2)) (if truthy is_factorizable then None else Some (num_of n_unique_action)) ;;;
  check_scalar_v dim_context is_int (Some (Fin 1)) None ;;;
  random_state_ok random_state ;;;
  raise_if (negb (in_strs ["binary"; "continuous"]%string reward_type)) ValueError ;;;
  st <- match reward_structure with
        | VStr s => match structure_of s with Some st => Ok st | None => Err ValueError end
        | _ => Err ValueError
        end ;;
  raise_if (negb (in_strs ["exponential"; "inverse"]%string decay_function)) ValueError ;;;
  click <- match click_model with
           | VNone => Ok None
           | v => raise_if (negb (in_strs ["cascade"; "pbm"]%string v)) ValueError ;;;
                  check_scalar_v eta is_float (Some (Fin 0)) None ;;;
                  Ok (Some ((if is_str "pbm" v then "pbm" else "cascade")%string, num_of eta))
           end ;;
  raise_if (match click with Some _ => is_str "continuous" reward_type | None => false end) ValueError ;;;
  Ok (mkSlateConf (int_of n_unique_action) (int_of len_list) (int_of dim_context) (is_str "binary" reward_type) st
        (is_str "exponential" decay_function) click (truthy is_factorizable)).

(** The checks of [MultiClassToBanditReduction.__post_init__] before the labels are read; [K] is the number of distinct
    labels.  Models: dataset/multiclass.py 167-180. *)
Definition mc_ctor (K : nat) (base_classifier : model_v) (alpha_b n_deficient : pyv) : res (num * Z) :=
  raise_if (negb (is_classifier base_classifier)) ValueError ;;;
  check_scalar_v alpha_b is_float (Some (Fin 0)) None ;;;
  check_scalar_v n_deficient is_int (Some (Fin 0)) (Some (Fin (IZR (Z.of_nat K - 1)))) ;;;
  raise_if (nle (Fin 1) (num_of alpha_b)) ValueError ;;;
  Ok (num_of alpha_b, int_of n_deficient).

(** A [data_path]: None, a string, a [Path] (as a string) or anything else.  Models: dataset/real.py 85-96. *)
Inductive path_v : Type := PNone | PStr (s : string) | PPath (s : string) | POther.
(** [OpenBanditDataset.__post_init__] up to the reading of the file: the base directory (None is the one of the
    package), the policy, the campaign and the name of the file.  Models: dataset/real.py 66-98. *)
Definition obd_ctor (behavior_policy campaign : pyv) (data_path : path_v) : res (option string * string * string * string) :=
  raise_if (negb (in_strs ["bts"; "random"]%string behavior_policy)) ValueError ;;;
  raise_if (negb (in_strs ["all"; "men"; "women"]%string campaign)) ValueError ;;;
  base <- match data_path with PNone => Ok None | PStr s | PPath s => Ok (Some s) | POther => Err ValueError end ;;
  match behavior_policy, campaign with
  | VStr b, VStr c => Ok (base, b, c, (c ++ ".csv")%string)
  | _, _ => Err ValueError
  end.

(** [BanditEnvironmentSimulator.__post_init__].  Models: simulator/simulator.py 147-169. *)
Definition env_ctor (n_actions dim_context : pyv) (action_context : array_v) (random_state : pyv) : res (Z * Z) :=
  check_scalar_v n_actions is_int (Some (Fin 2)) None ;;;
  check_scalar_v dim_context is_int (Some (Fin 1)) None ;;;
  random_state_given random_state ;;;
  check_action_context action_context (int_of n_actions) ;;;
  Ok (int_of n_actions, int_of dim_context).
