(** * S_Ctor: what the constructors of policies, models, datasets and environments accept. *)

From Coq Require Import String Reals List ZArith Bool.
From Verif Require Import Num M_Utils M_Init M_Policy M_Linear M_Logistic M_Reg M_SlateData M_Ctor S_Base S_Init.
Import ListNotations.
Open Scope R_scope.

(** An integer argument of value [z] at least [lo]. *)
Definition int_ge (lo : Z) (v : pyv) (z : Z) : Prop := integer v z /\ (lo <= z)%Z.
Definition int_range (lo hi : Z) (v : pyv) (z : Z) : Prop := integer v z /\ (lo <= z <= hi)%Z.

(** An integer usable as a seed (booleans and NumPy integers included). *)
Definition seed_integer (v : pyv) (z : Z) : Prop := (integer v z \/ v = VNpInt z) /\ (0 <= z < 4294967296)%Z.
(** What sklearn turns into a generator. *)
Definition generator (v : pyv) : Prop := v = VNone \/ v = VRandomState \/ exists z, seed_integer v z.
Definition given_generator (v : pyv) : Prop := v = VRandomState \/ exists z, seed_integer v z.

(** The objects Python takes for false. *)
Definition falsy (v : pyv) : Prop :=
  In v [VNone; VBool false; VNpBool false; VInt 0; VNpInt 0; VFloat (Fin 0); VStr ""; VTuple []; VList []; VDict []].

(** ** Online policies *)

(** Arguments common to all of them: number of actions, length of the lists, size of the batches. *)
Record online_args (n_actions len_list batch_size random_state : pyv) (K L B : Z) : Prop := {
  oa_actions : int_ge 2 n_actions K;
  oa_len : int_range 1 K len_list L;
  oa_batch : int_ge 1 batch_size B;
  oa_seed : generator random_state
}.
(** [epsilon]: a float in [0, 1], or any non-negative float for the UCB policies; NaN too. *)
Definition exploration (ucb : bool) (epsilon : pyv) : Prop := float_in (or_nan (if ucb then at_least 0 else between 0 1)) epsilon.
(** A positive float, or NaN; its value. *)
Definition positive_float (v : pyv) (x : num) : Prop := v = VFloat x /\ or_nan (above 0) x.

(** New policies. *)
Definition new_context_free (K L B : Z) : cfp :=
  let k := Z.to_nat K in
  mkCfp k (Z.to_nat L) (Z.to_nat B) 0 (repeat 0%Z k) (repeat 0%Z k) (repeat (Fin 0) k) (repeat (Fin 0) k).
Definition identity (d : nat) : list (list num) := tab2F d d (fun i j => if Nat.eqb i j then 1 else 0).
Definition new_linear (D K L B : Z) : linp :=
  let d := Z.to_nat D in let k := Z.to_nat K in
  mkLinp d k (Z.to_nat L) (Z.to_nat B) 0 (repeat 0%Z k) (repeat (identity d) k) (repeat (repeat (Fin 0) k) d)
    (repeat (identity d) k) (repeat (repeat (Fin 0) k) d).
(** Every action starts with the prior of mean zero and precision [lambda_]. *)
Definition new_logistic (D K L B : Z) (alpha lambda : num) : logp :=
  let d := Z.to_nat D in let k := Z.to_nat K in
  mkLogp d k (Z.to_nat L) (Z.to_nat B) 0 (repeat 0%Z k) (repeat [] k) (repeat [] k)
    (repeat (mkMblr alpha d (repeat (Fin 0) d) (repeat lambda d)) k).

(** ** Machine-learning models *)

Definition estimator (m : model_v) : Prop := exists c, m = MEstimator c.
(** Objects sklearn can copy. *)
Definition copyable (m : model_v) : Prop := estimator m \/ exists c, m = MDuck c true.
Definition classifier (m : model_v) : Prop := m = MEstimator true \/ exists p, m = MDuck true p.

(** The names of the fitting methods. *)
Definition fitting_name (m : fitting) : string := match m with Normal => "normal" | Iw => "iw" | Mrdr => "mrdr" end.
Definition iw_name (m : iw_method) : string := match m with Sample => "sample" | Raw => "raw" end.
Definition structure_name (s : structure) : string :=
  match s with
  | CascadeAdditive => "cascade_additive" | CascadeDecay => "cascade_decay" | Independent => "independent"
  | StandardAdditive => "standard_additive" | StandardDecay => "standard_decay"
  end.

(** ** Datasets *)

Definition reward_name (binary : bool) : string := if binary then "binary" else "continuous".
(** Action features: none, or an array of two dimensions with one row per action. *)
Definition features_for (K : Z) (ac : array_v) : Prop := ac = ANone \/ exists r, ac = AArray 2 r /\ Z.of_nat r = K.

(** What [SyntheticBanditDataset] accepts. *)
Record synth_accepts (n_actions dim_context reward_type reward_std n_deficient : pyv) (action_context : array_v)
    (random_state : pyv) (c : synth_conf) : Prop := {
  sa_actions : int_ge 2 n_actions (sc_actions c);
  sa_dim : int_ge 1 dim_context (sc_dim c);
  sa_deficient : int_range 0 (sc_actions c - 1) n_deficient (sc_deficient c);
  sa_seed : given_generator random_state;
  sa_type : reward_type = VStr (reward_name (sc_binary c));
  sa_std : number reward_std (sc_std c) /\ or_nan (at_least 0) (sc_std c);
  sa_features : features_for (sc_actions c) action_context
}.

(** What [SyntheticSlateBanditDataset] accepts; [eta] matters only with a click model, which excludes continuous rewards. *)
Record slate_accepts (n_unique_action len_list dim_context reward_type reward_structure decay_function click_model eta
    is_factorizable random_state : pyv) (c : slate_conf) : Prop := {
  la_K : int_ge 2 n_unique_action (lc_actions c);
  la_L : int_ge 2 len_list (lc_len c) /\ (lc_fact c = false -> (lc_len c <= lc_actions c)%Z);
  la_d : int_ge 1 dim_context (lc_dim c);
  la_gen : generator random_state;
  la_type : reward_type = VStr (reward_name (lc_binary c));
  la_structure : reward_structure = VStr (structure_name (lc_structure c));
  la_decay : decay_function = VStr (if lc_exponential c then "exponential" else "inverse");
  la_click : match lc_click c with
             | None => click_model = VNone
             | Some (m, x) => click_model = VStr m /\ In m ["cascade"; "pbm"]%string /\ eta = VFloat x /\ or_nan (at_least 0) x /\ lc_binary c = true
             end;
  la_fact : lc_fact c = false <-> falsy is_factorizable
}.
