(** * S_Policy: specification vocabulary for the online policies. *)

From Coq Require Import Reals List ZArith.
From Verif Require Import Num NpList S_Base S_Tuning M_Policy.
Import ListNotations.
Open Scope R_scope.

(** [l] is a ranking of [L] distinct actions out of [0 .. K-1]. *)
Definition is_ranking (K L : nat) (l : list nat) : Prop :=
  NoDup l /\ length l = L /\ forall a, In a l -> (a < K)%nat.

(** [l] is the ranking of the [L] best actions, best first: scores do not increase along [l] and no
    action left out beats one that was chosen. *)
Definition best_first (K L : nat) (score : nat -> R) (l : list nat) : Prop :=
  is_ranking K L l /\
  (forall i j, (i < j < L)%nat -> score (nth j l 0%nat) <= score (nth i l 0%nat)) /\
  (forall a b, (a < K)%nat -> ~ In a l -> In b l -> score a <= score b).

(** An argument acceptable as an action index, and the action it denotes (Python's negative indices count
    from the end). *)
Definition valid_action (K : nat) (a : Z) : Prop := (- Z.of_nat K <= a < Z.of_nat K)%Z.
Definition slot (K : nat) (a : Z) : nat := Z.to_nat (if Z.ltb a 0 then a + Z.of_nat K else a).

(** A history of (action, reward) pairs; how often action [a] occurs and the sum of its rewards. *)
Definition history := list (Z * R).
Fixpoint times (K : nat) (h : history) (a : nat) : nat :=
  match h with
  | [] => 0
  | (b, _) :: t => (if Nat.eqb (slot K b) a then 1 else 0) + times K t a
  end.
Fixpoint total (K : nat) (h : history) (a : nat) : R :=
  match h with
  | [] => 0
  | (b, r) :: t => (if Nat.eqb (slot K b) a then r else 0) + total K t a
  end.

(** The part of a history that lies in complete batches. *)
Definition committed {A : Type} (B : nat) (h : list A) : list A := firstn (length h / B * B) h.

(** The object after calling [update_params] once per element of the history. *)
Definition updates (p : cfp) (h : history) : cfp :=
  fold_left (fun p e => fst (cf_update_params p (fst e) (Fin (snd e)))) h p.

(** Objects a user can hold: constructed, then updated (successfully or not) with rewards satisfying [ok]
    and re-initialized, in any order. *)
Inductive reachable (ok : num -> Prop) (K L B : Z) : cfp -> Prop :=
| r_new p : cf_post_init K L B = Ok p -> reachable ok K L B p
| r_update p a r : reachable ok K L B p -> ok r -> reachable ok K L B (fst (cf_update_params p a r))
| r_initialize p : reachable ok K L B p -> reachable ok K L B (cf_initialize p).
Definition any_reward (r : num) : Prop := True.
Definition unit_reward (r : num) : Prop := exists x, r = Fin x /\ 0 <= x <= 1.
