(** * S_Init: what the constructors are documented to accept. *)

From Coq Require Import String Reals List ZArith Bool.
From Verif Require Import Num M_Init.
Import ListNotations.
Open Scope R_scope.

(** [v] is an [int] (booleans included) of value [z]. *)
Inductive integer : pyv -> Z -> Prop :=
| integer_int z : integer (VInt z) z
| integer_bool (b : bool) : integer (VBool b) (if b then 1%Z else 0%Z).

(** [v] is an [int] or a [float] of value [x]. *)
Inductive number : pyv -> num -> Prop :=
| number_int v z : integer v z -> number v (Fin (IZR z))
| number_float x : number (VFloat x) x.

Definition flag (v : pyv) : Prop := exists b, v = VBool b.
Definition one_of (l : list string) (v : pyv) : Prop := exists s, In s l /\ v = VStr s.

(** Ranges of floats; the [_or_nan] ones are met by NaN too. *)
Definition at_least (lo : R) (x : num) : Prop := x = PInf \/ exists r, x = Fin r /\ lo <= r.
Definition between (lo hi : R) (x : num) : Prop := exists r, x = Fin r /\ lo <= r <= hi.
Definition above (lo : R) (x : num) : Prop := x = PInf \/ exists r, x = Fin r /\ lo < r.
Definition or_nan (P : num -> Prop) (x : num) : Prop := x = NaN \/ P x.

(** A float within a range. *)
Definition float_in (P : num -> Prop) (v : pyv) : Prop := exists x, v = VFloat x /\ P x.
Definition int_from (lo : Z) (v : pyv) : Prop := exists z, integer v z /\ (lo <= z)%Z.

(** A seed: None, a boolean or a Python or NumPy integer of 32 bits. *)
Definition seed (v : pyv) : Prop :=
  v = VNone \/ flag v \/ exists z, (v = VInt z \/ v = VNpInt z) /\ (0 <= z < 4294967296)%Z.

(** Activation functions by name. *)
Definition activation_name (a : activation) : string :=
  match a with
  | AIdentity => "identity" | ALogistic => "logistic" | ATanh => "tanh" | ARelu => "relu" | AElu => "elu"
  end.

(** The parameters a network class accepts, with hidden layers of the sizes [hidden] and activation [act]. *)
Record net_accepted (c : net_params) (hidden : list Z) (act : activation) : Prop := {
  na_hidden : exists l, np_hidden c = VTuple l /\ Forall2 integer l hidden /\ Forall (fun h => (0 < h)%Z) hidden;
  na_activation : np_activation c = VStr (activation_name act);
  na_solver : one_of ["adam"; "adagrad"; "sgd"]%string (np_solver c);
  na_alpha : float_in (or_nan (at_least 0)) (np_alpha c);
  na_batch : np_batch c = VStr "auto" \/ int_from 1 (np_batch c);
  na_lr : float_in (or_nan (above 0)) (np_lr c);
  na_max_iter : int_from 1 (np_max_iter c);
  na_shuffle : flag (np_shuffle c);
  na_seed : seed (np_random_state c);
  na_tol : float_in (or_nan (above 0)) (np_tol c);
  na_momentum : float_in (or_nan (between 0 1)) (np_momentum c);
  na_nesterov : flag (np_nesterov c);
  na_early : flag (np_early c);
  na_valfrac : float_in (or_nan (fun x => between 0 1 x /\ x <> Fin 0)) (np_valfrac c);
  na_beta1 : float_in (or_nan (between 0 1)) (np_beta1 c);
  na_beta2 : float_in (or_nan (between 0 1)) (np_beta2 c);
  na_eps : float_in (or_nan (at_least 0)) (np_eps c);
  na_no_change : int_from 1 (np_no_change c)
}.

(** A chain of linear layers [input -> hidden -> ... -> output]. *)
Definition chain (input : Z) (hidden : list Z) (output : Z) : list (Z * Z) :=
  combine (input :: hidden) (hidden ++ [output]).

(** The parameters the optimiser of the chosen solver accepts. *)
Definition optimizer_accepts (c : net_params) : Prop :=
  (np_solver c = VStr "sgd" /\ float_in (at_least 0) (np_lr c) /\ float_in (at_least 0) (np_alpha c) /\
     float_in (at_least 0) (np_momentum c) /\ (np_nesterov c = VBool true -> float_in (above 0) (np_momentum c))) \/
  (np_solver c = VStr "adagrad" /\ float_in (at_least 0) (np_lr c) /\ float_in (at_least 0) (np_alpha c) /\
     float_in (at_least 0) (np_eps c)) \/
  (np_solver c = VStr "adam" /\ float_in (at_least 0) (np_lr c) /\ float_in (at_least 0) (np_alpha c) /\
     float_in (at_least 0) (np_eps c) /\
     float_in (fun x => between 0 1 x /\ x <> Fin 1) (np_beta1 c) /\ float_in (fun x => between 0 1 x /\ x <> Fin 1) (np_beta2 c)).

(** Fields of a network class by name. *)
Definition field (c : net_params) (k : string) : option pyv :=
  if String.eqb k "hidden_layer_size" then Some (np_hidden c)
  else if String.eqb k "activation" then Some (np_activation c)
  else if String.eqb k "solver" then Some (np_solver c)
  else if String.eqb k "alpha" then Some (np_alpha c)
  else if String.eqb k "batch_size" then Some (np_batch c)
  else if String.eqb k "learning_rate_init" then Some (np_lr c)
  else if String.eqb k "max_iter" then Some (np_max_iter c)
  else if String.eqb k "shuffle" then Some (np_shuffle c)
  else if String.eqb k "random_state" then Some (np_random_state c)
  else if String.eqb k "tol" then Some (np_tol c)
  else if String.eqb k "momentum" then Some (np_momentum c)
  else if String.eqb k "nesterovs_momentum" then Some (np_nesterov c)
  else if String.eqb k "early_stopping" then Some (np_early c)
  else if String.eqb k "validation_fraction" then Some (np_valfrac c)
  else if String.eqb k "beta_1" then Some (np_beta1 c)
  else if String.eqb k "beta_2" then Some (np_beta2 c)
  else if String.eqb k "epsilon" then Some (np_eps c)
  else if String.eqb k "n_iter_no_change" then Some (np_no_change c)
  else None.

Fixpoint lookup (k : string) (d : list (string * pyv)) : option pyv :=
  match d with [] => None | (k', v) :: r => if String.eqb k k' then Some v else lookup k r end.

(** [c] with the fields listed in [d] replaced, the names in [own] excepted. *)
Definition overridden (own : list string) (c : net_params) (d : list (string * pyv)) (c' : net_params) : Prop :=
  forall k, field c' k = match (if existsb (String.eqb k) own then None else lookup k d) with Some v => Some v | None => field c k end.

(** A given value, or the default. *)
Definition given_or (d : R) (v : pyv) : pyv := match v with VNone => VFloat (Fin d) | _ => v end.

(** The [lambda_] in use for an objective. *)
Definition lambda_in_use (objective lam : pyv) (l : option num) : Prop :=
  (objective = VStr "ipw-subgauss" /\ exists x, number (given_or (1/1000) lam) x /\ or_nan (between 0 1) x /\ l = Some x) \/
  (objective = VStr "snipw" /\ exists x, number (given_or 0 lam) x /\ or_nan (at_least 0) x /\ l = Some x) \/
  (objective = VStr "ipw-os" /\ exists x, number (given_or 10000 lam) x /\ or_nan (at_least 0) x /\ l = Some x) \/
  (one_of ["dm"; "ipw"; "dr"]%string objective /\ l = None).

(** What [NNPolicyLearner] accepts; [net] is its policy network, [l] the [lambda_] in use. *)
Record learner_accepted (n_actions len_list dim_context objective lam policy_reg var_reg hyper : pyv) (c : net_params)
  (K d : Z) (hidden : list Z) (act : activation) (l : option num) : Prop := {
  la_actions : integer n_actions K /\ (2 <= K)%Z;
  la_len : exists L, integer len_list L /\ (1 <= L <= K)%Z;
  la_dim : integer dim_context d /\ (1 <= d)%Z;
  la_lambda : lambda_in_use objective lam l;
  la_policy_reg : exists x, number policy_reg x /\ or_nan (at_least 0) x;
  la_var_reg : exists x, number var_reg x /\ or_nan (at_least 0) x;
  la_hyper : hyper = VNone \/ exists h, hyper = VDict h;
  la_net : net_accepted c hidden act
}.

(** The entries of the dictionary [hyper] ([None] is the empty dictionary). *)
Definition entries (hyper : pyv) : list (string * pyv) := match hyper with VDict h => h | _ => [] end.

(** What [NNPolicyLearnerForContinuousAction] accepts. *)
Record cont_learner_accepted (dim_context pg_method bandwidth output_space hyper : pyv) (c : net_params)
  (d : Z) (hidden : list Z) (act : activation) : Prop := {
  ca_dim : integer dim_context d /\ (1 <= d)%Z;
  ca_method : one_of ["dpg"; "ipw"; "dr"]%string pg_method;
  ca_bandwidth : pg_method <> VStr "dpg" -> exists x, number bandwidth x /\ or_nan (above 0) x;
  ca_space : output_space = VNone \/ exists l, output_space = VTuple l /\ Forall (fun v => exists x, number v x) l;
  ca_hyper : hyper = VNone \/ exists h, hyper = VDict h;
  ca_net : net_accepted c hidden act
}.
