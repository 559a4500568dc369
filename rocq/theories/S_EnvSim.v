(** * S_EnvSim: a policy interacting with a random environment. *)

From Coq Require Import Reals List ZArith.
From Verif Require Import Num NpList S_Base S_Prob M_Sim M_EnvSim S_Sim.
Import ListNotations.
Open Scope R_scope.

(** A coin with success probability [p]. *)
Definition bernoulli (p : R) : dist R := [(1, p); (0, 1 - p)].

(** A stochastic environment: in round [t] a context and (independently of the rewards, given the context) delays are
    drawn from [situation t]; given the context the rewards of the [K] actions are independent coins with success
    probabilities [mu t context]. *)
Record world : Type := mkWorld {
  wd_K : nat;
  wd_situation : nat -> dist (nd * option (list R));
  wd_mu : nat -> nd -> nat -> R
}.
Record world_ok (w : world) : Prop := {
  wo_situation : forall t, is_dist (wd_situation w t);
  wo_delays : forall t x d p, In ((x, Some d), p) (wd_situation w t) -> length d = wd_K w;
  wo_mu : forall t x a, (a < wd_K w)%nat -> 0 <= wd_mu w t x a <= 1
}.
Definition world_round (w : world) (t : nat) : dist bround :=
  dbind (wd_situation w t) (fun xd =>
    dmap (fun rs => mkBround (fst xd) (map Fin rs) (snd xd)) (dprod (wd_K w) (fun a => bernoulli (wd_mu w t (fst xd) a)))).

(** [T] rounds drawn one after the other. *)
Definition episode (w : world) (T : nat) : dist (list bround) := dprod T (world_round w).

(** Python's index: negative numbers count from the end. *)
Definition py_index (K : nat) (a : Z) : nat := Z.to_nat (if Z.ltb a 0 then a + Z.of_nat K else a).

(** The expected reward of the action taken in round [t] of a run. *)
Definition mean_reward {P : Type} (w : world) (s : sim P) (t : nat) : R :=
  wd_mu w t (nth t (sm_contexts s) (Vec [])) (py_index (wd_K w) (nth t (sm_actions s) 0%Z)).

Definition finite_or_0 (x : num) : R := match x with Fin r => r | _ => 0 end.

(** The best expected reward in context [x]. *)
Definition best_mean (w : world) (t : nat) (x : nd) : R :=
  fold_right Rmax 0 (tab (wd_K w) (wd_mu w t x)).
