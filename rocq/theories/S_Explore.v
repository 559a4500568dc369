(** * Specification: drawing without replacement, and playing a policy against an environment *)

From Coq Require Import Reals List ZArith.
From Coquelicot Require Import Coquelicot.
From Verif Require Import Num NpList S_Base S_Policy.
Import ListNotations.
Local Open Scope R_scope.

Definition mean_of {A : Type} (l : list A) (f : A -> R) : R := fold_right (fun a s => f a + s) 0 l / INR (length l).

(** The mean of [F] over [L] actions drawn one after another from [pool], uniformly and without putting them back. *)
Fixpoint draw_mean (L : nat) (pool : list nat) (F : list nat -> R) : R :=
  match L with
  | O => F []
  | S L => mean_of pool (fun a => draw_mean L (remove Nat.eq_dec a pool) (fun l => F (a :: l)))
  end.

(** [select_mean K L select F v]: [v] is the mean of [F] over the rankings [select] returns, when its uniform number is drawn from (0, 1)
    and its random ranking from the rankings of [L] out of [K] actions. *)
Definition select_mean (K L : nat) (select : R -> list nat -> res (list nat)) (F : res (list nat) -> R) (v : R) : Prop :=
  is_RInt (fun u => draw_mean L (seq 0 K) (fun c => F (select u c))) 0 1 v.

(** [select] returns the ranking [g] when the uniform number exceeds [e], otherwise the random ranking. *)
Definition mixes (e : R) (select : R -> list nat -> res (list nat)) (g : list nat) : Prop :=
  forall u c, (e < u -> select u c = Ok g) /\ (u <= e -> select u c = Ok c).

(** Action [a] is shown at position [j]. *)
Definition shown (j a : nat) (r : res (list nat)) : R :=
  match r with Ok l => if Nat.eqb (nth j l a) a then (if Nat.ltb j (length l) then 1 else 0) else 0 | Err _ => 0 end.

(** The mean over [T] rounds of the total of [w] over the actions played.  After the rounds [h] the policy [select h] is asked, the action
    at position [pos h] is played, and the round the environment makes of it, [env h a], is added. *)
Section Play.
  Context {E : Type} (K L : nat) (select : list E -> R -> list nat -> res (list nat)) (pos : list E -> nat) (env : list E -> nat -> E) (w : nat -> R).
  Definition round_outcome (rest : list E -> R) (h : list E) (u : R) : R :=
    draw_mean L (seq 0 K) (fun c =>
      match select h u c with
      | Ok l => let a := nth (pos h) l 0%nat in w a + rest (h ++ [env h a])
      | Err _ => 0
      end).
  Fixpoint expected_total (T : nat) (h : list E) : R :=
    match T with O => 0 | S T => RInt (round_outcome (expected_total T) h) 0 1 end.
  (** ... every mean in it being that of an integrable function. *)
  Fixpoint total_exists (T : nat) (h : list E) : Prop :=
    match T with
    | O => True
    | S T => ex_RInt (round_outcome (expected_total T) h) 0 1 /\ forall a, (a < K)%nat -> total_exists T (h ++ [env h a])
    end.
End Play.
