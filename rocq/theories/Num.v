(** * Num: Python/NumPy floats, exceptions and the error monad.

    A float is a finite real or one of the three IEEE 754 special values.
    Finite arithmetic is exact (no rounding, no overflow, no signed zero);
    special values propagate as in IEEE 754.  See DESIGN.md, section 1. *)

From Coq Require Import Reals List ZArith Bool.
Import ListNotations.
Open Scope R_scope.

(** Python exception classes that the modelled code can raise. *)
Inductive exn : Type :=
| ValueError | TypeError | IndexError | ZeroDivisionError | KeyError
| AttributeError | NameError | RuntimeError | PlainException | NotImplementedErr | AssertionErr.

(** Result of running a Python expression: a value or an exception. *)
Inductive res (A : Type) : Type :=
| Ok (a : A)
| Err (e : exn).
Arguments Ok {A} a.
Arguments Err {A} e.

Definition bind {A B : Type} (m : res A) (k : A -> res B) : res B :=
  match m with Ok a => k a | Err e => Err e end.

Definition rmap {A B : Type} (f : A -> B) (m : res A) : res B :=
  bind m (fun a => Ok (f a)).

(** [if cond: raise e] *)
Definition raise_if (b : bool) (e : exn) : res unit :=
  if b then Err e else Ok tt.

Notation "x <- m ;; k" := (bind m (fun x => k))
  (at level 61, m at next level, right associativity).
Notation "m ;;; k" := (bind m (fun _ => k))
  (at level 61, right associativity).

(** Run a fallible function over a list, left to right (a Python loop). *)
Fixpoint mapM {A B : Type} (f : A -> res B) (l : list A) : res (list B) :=
  match l with
  | [] => Ok []
  | x :: r => y <- f x ;; ys <- mapM f r ;; Ok (y :: ys)
  end.

(** A float. *)
Inductive num : Type :=
| Fin (r : R)
| PInf
| NInf
| NaN.

(** Boolean comparisons on reals (decided classically by the stdlib). *)
Definition Rleb (x y : R) : bool := if Rle_dec x y then true else false.
Definition Rltb (x y : R) : bool := if Rlt_dec x y then true else false.
Definition Reqb (x y : R) : bool := if Req_EM_T x y then true else false.

Definition is_nan (x : num) : bool := match x with NaN => true | _ => false end.

(** The infinity with the sign of [r]; NaN for zero (used for [inf * r] and [r / 0]). *)
Definition inf_sign (r : R) : num :=
  if Rltb 0 r then PInf else if Rltb r 0 then NInf else NaN.

Definition nopp (x : num) : num :=
  match x with Fin a => Fin (- a) | PInf => NInf | NInf => PInf | NaN => NaN end.

Definition nadd (x y : num) : num :=
  match x, y with
  | Fin a, Fin b => Fin (a + b)
  | NaN, _ | _, NaN => NaN
  | PInf, NInf | NInf, PInf => NaN
  | PInf, _ | _, PInf => PInf
  | NInf, _ | _, NInf => NInf
  end.

Definition nsub (x y : num) : num := nadd x (nopp y).

Definition nmul (x y : num) : num :=
  match x, y with
  | Fin a, Fin b => Fin (a * b)
  | NaN, _ | _, NaN => NaN
  | PInf, Fin b => inf_sign b
  | Fin a, PInf => inf_sign a
  | NInf, Fin b => nopp (inf_sign b)
  | Fin a, NInf => nopp (inf_sign a)
  | PInf, PInf | NInf, NInf => PInf
  | PInf, NInf | NInf, PInf => NInf
  end.

(** NumPy division: [x/0] is NaN for [x = 0] and an infinity otherwise
    (zeros are taken as positive: signed zero is not modelled). *)
Definition ndiv (x y : num) : num :=
  match x, y with
  | Fin a, Fin b => if Reqb b 0 then inf_sign a else Fin (a / b)
  | NaN, _ | _, NaN => NaN
  | Fin _, PInf | Fin _, NInf => Fin 0
  | PInf, Fin b => if Rltb b 0 then NInf else PInf
  | NInf, Fin b => if Rltb b 0 then PInf else NInf
  | _, _ => NaN
  end.

(** Comparisons: false as soon as one side is NaN. *)
Definition nle (x y : num) : bool :=
  match x, y with
  | Fin a, Fin b => Rleb a b
  | NaN, _ | _, NaN => false
  | NInf, _ => true
  | _, PInf => true
  | _, _ => false
  end.

Definition nlt (x y : num) : bool :=
  match x, y with
  | Fin a, Fin b => Rltb a b
  | NaN, _ | _, NaN => false
  | NInf, NInf => false
  | PInf, PInf => false
  | NInf, _ => true
  | _, PInf => true
  | _, _ => false
  end.

Definition neqb (x y : num) : bool :=
  match x, y with
  | Fin a, Fin b => Reqb a b
  | PInf, PInf | NInf, NInf => true
  | _, _ => false
  end.

Definition nabs (x : num) : num :=
  match x with Fin a => Fin (Rabs a) | PInf | NInf => PInf | NaN => NaN end.

(** [np.minimum] / [np.maximum]: NaN propagates. *)
Definition nmin (x y : num) : num :=
  if is_nan x || is_nan y then NaN else if nle x y then x else y.
Definition nmax (x y : num) : num :=
  if is_nan x || is_nan y then NaN else if nle x y then y else x.

(** [x ** 2] *)
Definition nsqr (x : num) : num := nmul x x.

(** [np.sqrt]: NaN on negative numbers. *)
Definition nsqrt (x : num) : num :=
  match x with
  | Fin a => if Rltb a 0 then NaN else Fin (sqrt a)
  | PInf => PInf
  | NInf | NaN => NaN
  end.

(** [np.log]: -inf at 0, NaN on negative numbers. *)
Definition nlog (x : num) : num :=
  match x with
  | Fin a => if Rltb a 0 then NaN else if Reqb a 0 then NInf else Fin (ln a)
  | PInf => PInf
  | NInf | NaN => NaN
  end.

Definition nexp (x : num) : num :=
  match x with
  | Fin a => Fin (exp a)
  | PInf => PInf
  | NInf => Fin 0
  | NaN => NaN
  end.

(** A boolean array element used as a number ([True] is 1). *)
Definition nbool (b : bool) : num := Fin (if b then 1 else 0).

Definition nnat (n : nat) : num := Fin (INR n).
