(** * S_Data: what the synthetic data generators are supposed to produce. *)

From Coq Require Import Reals List ZArith Permutation Sorted.
From Verif Require Import Num S_Base M_Data.
Import ListNotations.
Open Scope R_scope.

(** A matrix of n rows and K columns. *)
Definition tabR2 (n K : nat) (f : nat -> nat -> R) : list (list R) := tab n (fun i => tab K (f i)).

(** np.argsort: a permutation of the positions along which the values do not decrease. *)
Definition sorts (argsort : list R -> list nat) : Prop := forall g,
  Permutation (argsort g) (seq 0 (length g)) /\ StronglySorted (fun i j => nth i g 0 <= nth j g 0) (argsort g).

(** Sum over a list of actions. *)
Definition sum_over (S : list nat) (f : nat -> R) : R := fold_right Rplus 0 (map f S).

(** The softmax policy with inverse temperature [beta] restricted to the actions [S]. *)
Definition boltzmann_on (S : list nat) (beta : R) (lg : nat -> R) (a : nat) : R :=
  exp (beta * lg a) / sum_over S (fun b => exp (beta * lg b)).

(** The probabilities [pi] of the [K] actions are the softmax policy on [S] and zero elsewhere. *)
Definition softmax_on (K : nat) (S : list nat) (beta : R) (lg pi : nat -> R) : Prop :=
  (forall a, (a < K)%nat -> In a S -> pi a = boltzmann_on S beta lg a) /\ (forall a, (a < K)%nat -> ~ In a S -> pi a = 0).

(** [S] are [m] of the [K] actions, those with the largest perturbations [g] (any of them when m = K). *)
Definition selected (K m : nat) (g : nat -> R) (S : list nat) : Prop :=
  NoDup S /\ length S = m /\ (forall a, In a S -> (a < K)%nat) /\
  forall a b, In a S -> (b < K)%nat -> ~ In b S -> g b <= g a.

(** Mean rewards of a dataset on a context matrix, and the logits of its behaviour policy. *)
Definition mean_table (d : synth) (context : list (list R)) (n : nat) (m : nat -> nat -> R) : Prop :=
  match ds_fun d with
  | None => forall i, (i < n)%nat -> ds_free d = tab (ds_K d) (m i)
  | Some f => f context = tabR2 n (ds_K d) m
  end.
Definition logit_table (d : synth) (context : list (list R)) (n : nat) (q lg : nat -> nat -> R) : Prop :=
  match ds_beh d with
  | None => forall i a, (i < n)%nat -> (a < ds_K d)%nat -> lg i a = q i a
  | Some f => f context = tabR2 n (ds_K d) lg
  end.

(** The expected reward a dataset reports for a round and action whose reward function gives [m]: [m] for binary
    rewards, the mean of the normal distribution around [m] truncated to [0, reward_max] for continuous ones. *)
Definition truncated_mean (tn : truncnorm) (d : synth) (m : R) : R :=
  tn_mean tn ((0 - m) / ds_std d) ((ds_max d - m) / ds_std d) m (ds_std d).
Definition reported (tn : truncnorm) (d : synth) (m : R) : R := if ds_binary d then m else truncated_mean tn d m.

(** Sum of the integers f 0 .. f (n-1). *)
Fixpoint zsumn (n : nat) (f : nat -> Z) : Z := match n with O => 0%Z | S m => (zsumn m f + f m)%Z end.

(** Rounding to the nearest integer, ties to the even one. *)
Definition nearest_even (x : R) (z : Z) : Prop := Rabs (IZR z - x) <= 1 / 2 /\ (Rabs (IZR z - x) = 1 / 2 -> Z.even z = true).
