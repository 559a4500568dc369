(** * S_Linear: specification vocabulary for the linear contextual policies. *)

From Coq Require Import Reals List ZArith.
From Verif Require Import Num NpList S_Base S_Policy M_Linear.
Import ListNotations.
Open Scope R_scope.

(** One observed round: action argument, reward, context vector. *)
Record round := mkRound { rd_action : Z; rd_reward : R; rd_x : nat -> R }.

Definition dot (d : nat) (u v : nat -> R) : R := sumn d (fun i => u i * v i).
Definition mvec (d : nat) (M : nat -> nat -> R) (v : nat -> R) (i : nat) : R := sumn d (fun j => M i j * v j).
Definition delta (i j : nat) : R := if Nat.eqb i j then 1 else 0.

(** Sum over the rounds of a history in which action [a] was taken. *)
Fixpoint lsum (K : nat) (h : list round) (a : nat) (f : round -> R) : R :=
  match h with
  | [] => 0
  | e :: t => (if Nat.eqb (slot K (rd_action e)) a then f e else 0) + lsum K t a f
  end.

(** Identity plus the sum of x x^T, and the sum of r x, over the rounds of action [a]. *)
Definition gram (K : nat) (h : list round) (a i j : nat) : R := delta i j + lsum K h a (fun e => rd_x e i * rd_x e j).
Definition moment (K : nat) (h : list round) (a i : nat) : R := lsum K h a (fun e => rd_reward e * rd_x e i).

(** [B] is the two-sided inverse of the d x d matrix [A]; symmetric; positive definite. *)
Definition is_inverse (d : nat) (A B : nat -> nat -> R) : Prop :=
  forall i j, (i < d)%nat -> (j < d)%nat ->
    sumn d (fun k => A i k * B k j) = delta i j /\ sumn d (fun k => B i k * A k j) = delta i j.
Definition symmetric (d : nat) (B : nat -> nat -> R) : Prop :=
  forall i j, (i < d)%nat -> (j < d)%nat -> B i j = B j i.
Definition pos_def (d : nat) (B : nat -> nat -> R) : Prop :=
  forall v, (exists i, (i < d)%nat /\ v i <> 0) -> 0 < dot d v (mvec d B v).

(** Ridge-regression loss of the rounds of action [a]. *)
Definition ridge_loss (K d : nat) (h : list round) (a : nat) (theta : nat -> R) : R :=
  lsum K h a (fun e => (rd_reward e - dot d theta (rd_x e)) ^ 2) + dot d theta theta.

(** The object after calling [update_params] with each round of the history (contexts of shape (1, d)). *)
Definition lin_updates (d : nat) (p : linp) (h : list round) : linp :=
  fold_left (fun p e => fst (lin_update_params p (rd_action e) (Fin (rd_reward e)) [tabF d (rd_x e)])) h p.
