(** * S_Logistic: specification vocabulary for the logistic contextual policies. *)

From Coq Require Import Reals List ZArith.
From Verif Require Import Num NpList S_Base S_Policy S_Linear M_Logistic.
Import ListNotations.
Open Scope R_scope.

(** Penalised loss of [n] observations (x_i, y_i) at [w]: centre [m], precisions [q]. *)
Definition log_loss (d n : nat) (X : nat -> nat -> R) (y : nat -> R) (q m w : nat -> R) : R :=
  1 / 2 * sumn d (fun j => q j * (w j - m j) ^ 2) + sumn n (fun i => ln (1 + exp (- y i * dot d (X i) w))).

(** [w] with coordinate [j] replaced by [t]. *)
Definition with_coord (w : nat -> R) (j : nat) (t : R) (k : nat) : R := if Nat.eqb k j then t else w k.

(** Probability the fitted model's update attaches to a context, and the precisions after a fit. *)
Definition fit_prob (d : nat) (x m : nat -> R) : R := / (1 + exp (1 + dot d x m)).
Definition fit_precision (d n : nat) (X : nat -> nat -> R) (q m : nat -> R) (j : nat) : R :=
  q j + sumn n (fun i => fit_prob d (X i) m * (1 - fit_prob d (X i) m) * X i j ^ 2).

(** The consecutive complete batches of a history, the pending rest, and the rounds of one action. *)
Definition batches {A : Type} (B : nat) (h : list A) : list (list A) :=
  tab (length h / B) (fun k => firstn B (skipn (k * B) h)).
Definition pending {A : Type} (B : nat) (h : list A) : list A := skipn (length h / B * B) h.
Definition rounds_of (K : nat) (a : nat) (h : list round) : list round :=
  filter (fun e => Nat.eqb (slot K (rd_action e)) a) h.

(** The call [fit(X, y)] on a list of rounds, skipped when the list is empty. *)
Definition fit_rounds (minimize : (list num -> res num) -> (list num -> res (list num)) -> list num -> list num)
    (d : nat) (o : mblr) (l : list round) : res mblr :=
  match l with
  | [] => Ok o
  | _ => lr_fit minimize o (map (fun e => tabF d (rd_x e)) l) (map (fun e => Fin (rd_reward e)) l)
  end.
Fixpoint fit_batches (minimize : (list num -> res num) -> (list num -> res (list num)) -> list num -> list num)
    (K d a : nat) (o : mblr) (bs : list (list round)) : res mblr :=
  match bs with
  | [] => Ok o
  | b :: t => o' <- fit_rounds minimize d o (rounds_of K a b) ;; fit_batches minimize K d a o' t
  end.

(** The object after calling [update_params] with each round of the history (contexts of shape (1, d)). *)
Definition log_updates (minimize : (list num -> res num) -> (list num -> res (list num)) -> list num -> list num)
    (d : nat) (p : logp) (h : list round) : logp :=
  fold_left (fun p e => fst (log_update_params minimize p (rd_action e) (Fin (rd_reward e)) [tabF d (rd_x e)])) h p.
