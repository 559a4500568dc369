(** * S_Gradient: a parametrised policy in the data-generating process. *)

From Coq Require Import Reals List ZArith.
From Verif Require Import Num S_Base S_Prob S_Env S_Offline.
Import ListNotations.
Open Scope R_scope.

(** The same data-generating process with the policy [f] to be evaluated. *)
Definition with_policy {X} (e : benv X) (f : X -> nat -> R) : benv X :=
  mkEnv (ev_n e) (ev_K e) (ev_L e) (ev_pos e) (ev_ctx e) (ev_pb e) (fun x a _ => f x a) (ev_rd e).

(** The training batch for the outcome [o] with correct propensities and the reward model [qh]. *)
Definition batch_of {X} (e : benv X) (qh : X -> nat -> R) (o : list (X * nat * R)) : batch :=
  mkBatch (ev_n e) (ev_K e)
    (fun i => match nth_error o i with Some (_, a, _) => a | None => 0%nat end)
    (fun i => match nth_error o i with Some (_, _, r) => r | None => 0 end)
    (fun i => match nth_error o i with Some (x, a, _) => ev_pb e x (ev_pos e i) a | None => 0 end)
    (fun i a => match nth_error o i with Some (x, _, _) => qh x a | None => 0 end).

(** What the policy [f] plays in the rounds of the outcome. *)
Definition played {X} (f : X -> nat -> R) (o : list (X * nat * R)) (i a : nat) : R :=
  match nth_error o i with Some (x, _, _) => f x a | None => 1 end.
