(** * M_Feedback: model of [check_bandit_feedback_inputs] (obp/utils.py).

    Array ranks and the integer dtype of [action] and [position] are carried by the Coq types. *)

From Coq Require Import Reals List ZArith Bool.
From Verif Require Import Num NpList.
Import ListNotations.
Open Scope R_scope.

(** [x.shape[1]] of a 2-D array; the code only evaluates it on arrays with at least one row. *)
(** Models: utils.py 261, 303, 397. *)
Definition ncols (x : arr2) : Z := match x with [] => 0%Z | r :: _ => Z.of_nat (length r) end.

(** utils.py 258-265, 267-268, 300-310: [action.min() >= 0 and action.max() < bound] and the variant without
    bound; the minimum of an empty array raises ValueError, as the failed test does. *)
Definition check_action_range (action : list Z) (bound : option Z) : res unit :=
  lo <- zminl action ;;
  raise_if (Z.ltb lo 0) ValueError ;;;
  match bound with
  | None => Ok tt
  | Some b => hi <- zmaxl action ;; raise_if (negb (Z.ltb hi b)) ValueError
  end.

(** [context.shape[0] == action.shape[0] == reward.shape[0] (== n)] *)
(** Models: utils.py 225-440 (length comparisons of the checks). *)
Definition check_lengths (context : arr2) (action : list Z) (reward : arr1) (n : option nat) : res unit :=
  raise_if (negb (Nat.eqb (length context) (length action) && Nat.eqb (length action) (length reward) &&
                  match n with None => true | Some m => Nat.eqb (length reward) m end)) ValueError.

(** utils.py 243-310: [check_bandit_feedback_inputs]. *)
Definition check_bandit_feedback_inputs (context : arr2) (action : list Z) (reward : arr1)
    (expected_reward : option arr2) (position : option (list Z)) (pscore : option arr1)
    (action_context : option arr2) : res unit :=
  match expected_reward with
  | Some er => check_lengths context action reward (Some (length er)) ;;; check_action_range action (Some (ncols er))
  | None => check_action_range action None
  end ;;;
  match pscore with
  | Some p => check_lengths context action reward (Some (length p)) ;;; raise_if (any_le0 p) ValueError
  | None => Ok tt
  end ;;;
  match position with
  | Some q => check_lengths context action reward (Some (length q)) ;;; check_action_range q None
  | None => check_lengths context action reward None
  end ;;;
  match action_context with
  | Some ac => check_action_range action (Some (Z.of_nat (length ac)))
  | None => check_action_range action None
  end.
