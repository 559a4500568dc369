(** * Specification: polynomials in the features *)

From Coq Require Import Reals List.
From Verif Require Import S_Base.
Import ListNotations.
Local Open Scope R_scope.

(** Exponents, one per feature; their total degree and the monomial they denote. *)
Definition exponents := list nat.
Fixpoint total_degree (e : exponents) : nat := match e with [] => 0 | k :: t => k + total_degree t end.
Fixpoint monomial (e : exponents) (x : list R) : R :=
  match e, x with k :: e, v :: x => v ^ k * monomial e x | _, _ => 1 end.

(** [es] lists every monomial in [p] features of degree at most [d] exactly once. *)
Definition all_monomials (d p : nat) (es : list exponents) : Prop :=
  NoDup es /\ forall e, In e es <-> length e = p /\ (total_degree e <= d)%nat.
(** ... or some of them, [m] altogether. *)
Definition some_monomials (d p m : nat) (es : list exponents) : Prop :=
  NoDup es /\ length es = m /\ forall e, In e es -> length e = p /\ (total_degree e <= d)%nat.

(** The value of a round with features [x] and an action with features [y]: a linear form in the context monomials [ex], one in the action
    monomials [ea], and a bilinear form in both. *)
Definition form_value (ex ea : list exponents) (w v : nat -> R) (m : nat -> nat -> R) (x y : list R) : R :=
  sumn (length ex) (fun j => monomial (nth j ex []) x * w j) + sumn (length ea) (fun l => v l * monomial (nth l ea []) y)
  + sumn (length ea) (fun l => sumn (length ex) (fun j => monomial (nth j ex []) x * m j l) * monomial (nth l ea []) y).

(** Random columns without repetition. *)
Definition chooses (choose : nat -> nat -> nat -> list nat) : Prop :=
  forall which d e, (e <= d)%nat -> NoDup (choose which d e) /\ length (choose which d e) = e /\ forall c, In c (choose which d e) -> (c < d)%nat.
