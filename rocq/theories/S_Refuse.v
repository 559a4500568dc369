(** * Specification: logs that every estimator refuses to look at *)

From Coq Require Import Reals List ZArith.
From Verif Require Import Num NpList S_Base.
Import ListNotations.
Local Open Scope R_scope.

(** Unless [P] holds, the call raises ValueError. *)
Definition guarded {A : Type} (P : Prop) (r : res A) : Prop := ~ P -> r = Err ValueError.
Definition answers {A : Type} (r : res A) : Prop := exists x, r = Ok x.

(** An evaluation policy over [K] actions and [L] positions with its positions: the probabilities sum to one up to the tolerance
    of np.allclose in every round and position; positions are within the list and must be given when there are several. *)
Record policy_ok (n K L : nat) (pi : nat -> nat -> nat -> num) (position : option (list Z)) : Prop := {
  po_sums : forall i s, (i < n)%nat -> (s < L)%nat ->
    exists v, nsum (tab K (fun a => pi i a s)) = Fin v /\ Rabs (v - 1) <= 1 / 100000 + 1 / 100000000;
  po_range : forall p, position = Some p -> length p = n /\ forall z, In z p -> (0 <= z < Z.of_nat L)%Z;
  po_given : (1 < L)%nat -> position <> None }.

(** Logged actions and rewards. *)
Record log_ok (K : nat) (action : list Z) (reward : list num) : Prop := {
  lo_length : length reward = length action;
  lo_some : action <> [];
  lo_range : forall z, In z action -> (0 <= z < Z.of_nat K)%Z }.

(** Propensities (the estimated ones when these are asked for): none is zero or less. *)
Definition propensities_ok (use_estimated : bool) (action : list Z) (pscore estimated : option (list num)) : Prop :=
  exists ps, (if use_estimated then estimated else pscore) = Some ps /\ length ps = length action /\
    forall x, In x ps -> nle x (Fin 0) = false.
Definition given_weights_ok (action : list Z) (w : list num) : Prop :=
  length w = length action /\ forall x, In x w -> nlt x (Fin 0) = false.
(** The loggers' indices. *)
Definition strata_ok (n : nat) (stratum : list Z) : Prop := length stratum = n /\ forall k, In k stratum -> (0 <= k)%Z.
