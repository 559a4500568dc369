(** * S_Base: vocabulary of the specifications (no model code used, only the type [num]). *)

From Coq Require Import Reals List ZArith.
From Verif Require Import Num.
Import ListNotations.
Open Scope R_scope.

(** [f 0 + ... + f (n-1)] *)
Fixpoint sumn (n : nat) (f : nat -> R) : R :=
  match n with O => 0 | S m => sumn m f + f m end.

(** Arithmetic mean of [f 0 .. f (n-1)]. *)
Definition avg (n : nat) (f : nat -> R) : R := sumn n f / INR n.

(** The array [f 0, ..., f (n-1)].  Every list is of this form, so quantifying over [n] and
    [f] quantifies over every array of the given shape. *)
Definition tab {A : Type} (n : nat) (f : nat -> A) : list A := map f (seq 0 n).

(** Array of shape (n,k,m) with arbitrary entries. *)
Definition tab3 {A : Type} (n k m : nat) (f : nat -> nat -> nat -> A) : list (list (list A)) :=
  tab n (fun i => tab k (fun a => tab m (f i a))).

(** Float arrays of shape (n), (n,k), (n,k,m) with finite entries; integer array of shape (n). *)
Definition tabF (n : nat) (f : nat -> R) : list num := tab n (fun i => Fin (f i)).
Definition tab2F (n k : nat) (f : nat -> nat -> R) : list (list num) :=
  tab n (fun i => tabF k (f i)).
Definition tab3F (n k m : nat) (f : nat -> nat -> nat -> R) : list (list (list num)) :=
  tab n (fun i => tab2F k m (f i)).
Definition tabZ (n : nat) (f : nat -> nat) : list Z := tab n (fun i => Z.of_nat (f i)).

(** Largest and smallest value of [f 0 .. f (n-1)] as predicates. *)
Definition bounded_by (n : nat) (f : nat -> R) (lo hi : R) : Prop :=
  forall i, (i < n)%nat -> lo <= f i <= hi.
