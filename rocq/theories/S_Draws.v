(** * Specification: means over independent uniform draws *)

From Coq Require Import Reals List.
From Coquelicot Require Import Coquelicot.
From Verif Require Import S_Base S_Prob S_Env.
Import ListNotations.
Local Open Scope R_scope.

(** A stream of numbers with a new first one. *)
Definition scons {A : Type} (u : A) (us : nat -> A) (i : nat) : A := match i with O => u | S j => us j end.
Definition unit_draws (us : nat -> R) : Prop := forall i, 0 < us i < 1.

(** [uniform_mean n F v]: the mean of [F], which looks at the first [n] numbers, over independent draws from (0, 1) is [v]; an
    iterated Riemann integral. *)
Fixpoint uniform_mean (n : nat) (F : (nat -> R) -> R) (v : R) : Prop :=
  match n with
  | O => F (fun _ => 1 / 2) = v
  | S n => exists G : R -> R, (forall u, 0 < u < 1 -> uniform_mean n (fun us => F (scons u us)) (G u)) /\ is_RInt G 0 1 v
  end.
(** Two batches of draws, for the actions and for the rewards. *)
Definition uniform_mean2 (n : nat) (F : (nat -> R) -> (nat -> R) -> R) (v : R) : Prop :=
  exists G, (forall us, unit_draws us -> uniform_mean n (F us) (G us)) /\ uniform_mean n G v.

(** The mean of [F] over independent actions, action i having probability [p i a]. *)
Fixpoint product_mean (n K : nat) (p : nat -> nat -> R) (F : (nat -> nat) -> R) : R :=
  match n with
  | O => F (fun _ => 0%nat)
  | S n => sumn K (fun a => p 0%nat a * product_mean n K (fun i => p (S i)) (fun act => F (scons a act)))
  end.

(** A generator of coins: read at a uniform number it shows heads with the probability asked for. *)
Definition fair_coin (coin : R -> R -> bool) : Prop :=
  forall p, 0 <= p <= 1 -> is_RInt (fun v => if coin v p then 1 else 0) 0 1 p.
(** ... and never an impossible side. *)
Definition possible_coin (coin : R -> R -> bool) : Prop :=
  forall v p, 0 < v < 1 -> 0 <= p <= 1 -> if coin v p then 0 < p else p < 1.

(** The data-generating process of [S_Env] whose contexts are the round numbers (numbers past the last stand for the last): in round i
    action a has probability [pi i a], the evaluation policy gives it [pe i a], and it is rewarded by 1 with probability [m i a], by 0
    otherwise. *)
Definition fixed_rounds (n K : nat) (pi pe m : nat -> nat -> R) : benv nat :=
  let at_round x := Nat.min x (n - 1) in
  mkEnv n K 1 (fun _ => 0%nat) (fun i => [(i, 1)]) (fun x _ a => pi (at_round x) a) (fun x a _ => pe (at_round x) a)
    (fun x _ a => let p := if Nat.ltb a K then m (at_round x) a else 0 in [(1, p); (0, 1 - p)]).
