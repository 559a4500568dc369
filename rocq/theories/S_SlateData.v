(** * S_SlateData: rankings, their probabilities and click behaviour, as the slate generator is supposed to produce them. *)

From Coq Require Import Reals List ZArith.
From Verif Require Import Num S_Base.
Import ListNotations.
Open Scope R_scope.

(** Sum and product of a function over a list / over 0..n-1. *)
Definition sum_list {A} (l : list A) (f : A -> R) : R := fold_right Rplus 0 (map f l).
Fixpoint prodn (n : nat) (f : nat -> R) : R := match n with O => 1 | S m => prodn m f * f m end.

(** Slates of [L] actions out of [K]; unless the policy is factorizable the actions are distinct. *)
Definition slate_of (fact : bool) (K L : nat) (s : list nat) : Prop :=
  length s = L /\ (forall a, In a s -> (a < K)%nat) /\ (fact = false -> NoDup s).
(** [all] lists each element satisfying [P] once. *)
Definition enumerates {A} (all : list A) (P : A -> Prop) : Prop := NoDup all /\ forall s, In s all <-> P s.

(** May slot [j] show action [b] when the slots before it show s(0), ..., s(j-1)? *)
Definition may_show (fact : bool) (s : nat -> nat) (j b : nat) : bool := orb fact (forallb (fun i => negb (Nat.eqb (s i) b)) (seq 0 j)).
(** Total weight of the actions below [a] that slot [j] may show. *)
Definition weight_below (fact : bool) (w : nat -> R) (s : nat -> nat) (j a : nat) : R :=
  sumn a (fun b => if may_show fact s j b then w b else 0).
(** Probability that slots 0..k-1 show s(0), ..., s(k-1): in every slot, an action is chosen with probability proportional to
    its weight among those that may be shown. *)
Definition slot_prob (fact : bool) (K : nat) (w : nat -> R) (s : nat -> nat) (j : nat) : R := w (s j) / weight_below fact w s j K.
Definition ranking_prob (fact : bool) (K : nat) (w : nat -> R) (s : nat -> nat) (k : nat) : R := prodn k (slot_prob fact K w s).

(** ** Rewards *)
From Verif Require Import M_SlateData.

(** The slots whose actions influence the reward of slot [j]. *)
Definition influences (st : structure) (j p : nat) : bool :=
  match st with Independent => false | CascadeAdditive | CascadeDecay => Nat.ltb p j | StandardAdditive | StandardDecay => negb (Nat.eqb p j) end.
(** The value of slot [j] of the slate [s]: the base value [g] of its action, plus for every influencing slot the weight of the pair
    of actions (additive structures) or its base value times the weight of the pair of slots (decay structures). *)
Definition slot_total (st : structure) (W : nat -> nat -> R) (g : nat -> R) (L : nat) (s : nat -> nat) (j : nat) : R :=
  g (s j) + sumn L (fun p => if influences st j p
                             then match st with CascadeAdditive | StandardAdditive => W (s j) (s p) | _ => g (s p) * W j p end
                             else 0).
(** Binary rewards: the base reward is a probability and effects are added on the logit scale; continuous ones are cut off at zero. *)
Definition slot_mean (binary : bool) (st : structure) (W : nat -> nat -> R) (g : nat -> R) (L : nat) (s : nat -> nat) (j : nat) : R :=
  if binary then 1 / (1 + exp (- slot_total st W (fun a => ln (g a / (1 - g a))) L s j)) else Rmax (slot_total st W g L s j) 0.

(** The element of an array of length [K] that action [a], stored in a signed 8-bit integer, refers to: [a] itself when [K <= 128]. *)
Definition stored (K a : nat) : nat := let r := (a mod 256)%nat in if Nat.ltb r 128 then r else (K + r - 256)%nat.

(** Expected rewards of slots [pos], [pos+1], ... (base click probabilities [x], ...) of a user for whom a click in a slot multiplies
    all later click probabilities by the attractiveness of the next slot; [D] is the discount collected so far. *)
Fixpoint click_total (att : nat -> R) (pos : nat) (D : R) (x : list R) : R :=
  match x with
  | [] => 0
  | p :: r => D * p * (1 + click_total att (S pos) (D * att (S pos)) r) + (1 - D * p) * click_total att (S pos) D r
  end.
