(** * S_Prob: finite-support probability, for statements about expectations. *)

From Coq Require Import Reals List ZArith.
From Verif Require Import Num S_Base.
Import ListNotations.
Open Scope R_scope.

(** A finite-support distribution: outcomes with their probabilities. *)
Definition dist (A : Type) := list (A * R).

(** Expected value of [f]. *)
Definition expect {A : Type} (d : dist A) (f : A -> R) : R :=
  fold_right (fun xp acc => f (fst xp) * snd xp + acc) 0 d.

Definition is_dist {A : Type} (d : dist A) : Prop :=
  (forall a p, In (a, p) d -> 0 <= p) /\ expect d (fun _ => 1) = 1.

(** Draw [x] from [d], then draw from [f x]. *)
Definition dbind {A B : Type} (d : dist A) (f : A -> dist B) : dist B :=
  flat_map (fun xp => map (fun yq => (fst yq, snd xp * snd yq)) (f (fst xp))) d.

(** The distribution on [0 .. k-1] with probabilities [w]. *)
Definition dtab (k : nat) (w : nat -> R) : dist nat := tab k (fun a => (a, w a)).

Definition dmap {A B : Type} (f : A -> B) (d : dist A) : dist B :=
  map (fun xp => (f (fst xp), snd xp)) d.

(** [n] independent draws, the i-th from [D i], as a list of length n. *)
Fixpoint dprod {A : Type} (n : nat) (D : nat -> dist A) : dist (list A) :=
  match n with
  | O => [([], 1)]
  | S m => dbind (dprod m D) (fun o => dmap (fun x => o ++ [x]) (D m))
  end.

(** "The program [f], run on an outcome drawn from [d], returns a finite number for every
    outcome of non-zero probability, and its expected value is [v]." *)
Definition expects {A : Type} (d : dist A) (f : A -> res num) (v : R) : Prop :=
  exists g : A -> R,
    (forall a p, In (a, p) d -> p <> 0 -> f a = Ok (Fin (g a))) /\ expect d g = v.
