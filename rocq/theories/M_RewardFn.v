(** * M_RewardFn: model of the named reward functions and behaviour policies of obp/dataset/synthetic.py

    [poly_row] is our reading of scikit-learn's [PolynomialFeatures(degree)] (with its default bias column): the products of all
    combinations with repetition of 0, 1, .., degree features, in the order of itertools.  The random numbers are arguments: [choose] is
    the choice of columns of the sparse functions, [coefs] the coefficient function. *)

From Coq Require Import Reals List ZArith.
From Verif Require Import Num NpList M_Utils M_Data.
Import ListNotations.
Open Scope R_scope.

(** Models: dataset/synthetic.py 763-765 and 962-964 (sklearn PolynomialFeatures, the products of [k] features). *)
Fixpoint products (k : nat) (x : list R) {struct k} : list R :=
  match k with
  | O => [1]
  | S k =>
      (fix from (x : list R) : list R :=
         match x with
         | [] => []
         | v :: t => map (Rmult v) (products k x) ++ from t
         end) x
  end.
(** Models: dataset/synthetic.py 763-765 and 962-964. *)
Definition poly_row (degree : nat) (x : list R) : list R := flat_map (fun k => products k x) (seq 0 (S degree)).
(** Models: dataset/synthetic.py 763-765 and 962-964. *)
Definition poly_features (degree : nat) (m : mat) : mat := map (poly_row degree) m.

Section Functions.
  Context (choose : nat -> nat -> nat -> list nat) (coefs : nat -> nat -> nat -> coef1 * coef1 * coef2)
    (context action_context : mat) (z_score : bool).
  (** Models: dataset/synthetic.py 685-832 ([_base_reward_function], called by the six functions below). *)
  Definition reward_of (degree : Z) (ratio : R) : res arr2 :=
    base_reward poly_features choose coefs context action_context degree ratio z_score.

  (** synthetic.py 451-460: [logistic_reward_function]. *)
  Definition logistic_reward_function : res (list (list (option R))) := l <- reward_of 1 1 ;; Ok (logistic_of l).
  (** synthetic.py 498-507: [logistic_polynomial_reward_function]. *)
  Definition logistic_polynomial_reward_function : res (list (list (option R))) := l <- reward_of 3 1 ;; Ok (logistic_of l).
  (** synthetic.py 546-556: [logistic_sparse_reward_function]. *)
  Definition logistic_sparse_reward_function : res (list (list (option R))) := l <- reward_of 4 (3 / 10) ;; Ok (logistic_of l).
  (** synthetic.py 589-596: [linear_reward_function]. *)
  Definition linear_reward_function : res arr2 := reward_of 1 1.
  (** synthetic.py 631-638: [polynomial_reward_function]. *)
  Definition polynomial_reward_function : res arr2 := reward_of 3 1.
  (** synthetic.py 674-682: [sparse_reward_function]. *)
  Definition sparse_reward_function : res arr2 := reward_of 4 (3 / 10).
End Functions.

Section Behaviour.
  Context (unif1 : nat -> list R) (unif2 : nat -> nat -> mat) (context action_context : mat).
  (** synthetic.py 906-976: [_base_behavior_policy_function]; [unif1 d] and [unif2 d d'] are the arrays of uniform numbers of these
      shapes. *)
  Definition behavior_of (degree : Z) : res arr2 :=
    check_scalar_Z degree (Some 1%Z) None ;;;
    let dg := Z.to_nat degree in
    let ctx := poly_features dg context in
    let acs := poly_features dg action_context in
    let dc := length (nth 0 ctx []) in
    let da := length (nth 0 acs []) in
    Ok (behaviour_logits dg (behaviour_raw ctx acs (unif1 da) (unif2 dc da))).
  (** synthetic.py 860-865: [linear_behavior_policy]. *)
  Definition linear_behavior_policy : res arr2 := behavior_of 1.
  (** synthetic.py 898-903: [polynomial_behavior_policy]. *)
  Definition polynomial_behavior_policy : res arr2 := behavior_of 3.
End Behaviour.
