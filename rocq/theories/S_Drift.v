(** * S_Drift: specification vocabulary for the coefficient drifter. *)

From Coq Require Import Reals List ZArith Bool.
From Verif Require Import Num NpList M_Drift S_Base.
Import ListNotations.
Open Scope R_scope.

(** The generator after [k] coefficient samples, and the [k]-th sampled coefficient set. *)
Fixpoint generator {G : Type} (sample : G -> G * coef) (g : G) (k : nat) : G :=
  match k with O => g | S j => fst (sample (generator sample g j)) end.
Definition sampled {G : Type} (sample : G -> G * coef) (g : G) (k : nat) : coef := snd (sample (generator sample g k)).

(** The coefficient set of drift interval [k]: a new one each time, or two alternating ones. *)
Definition phase (seasonal : bool) (k : nat) : nat := if seasonal then Nat.modulo k 2 else k.

(** Weight of the next coefficient set in round [j] of a drift interval of length [I] whose last [T] rounds
    are the transition: [1/(T+1)] in the first of them up to [T/(T+1)] in the last, 0 before ([-] is
    truncated). *)
Definition transition_weight (I T j : nat) : R := INR (j + 1 + T - I) / (INR T + 1).

(** Row [i] of a request of [n] rounds made after [N] rounds: the drift interval of round [N+i], and the
    weight [get_coefficients] gives it.  When the request ends inside that interval the code takes the
    weights of the last rounds of the interval instead of those of the requested rounds. *)
Definition served_weight (I T N n i : nat) : R :=
  if Nat.ltb ((N + i) / I) ((N + n) / I)
  then transition_weight I T ((N + i) mod I)
  else transition_weight I T (I - (N + n) mod I + (N + i) mod I).
Definition served_row (I T : nat) (w : R) (c : nat -> coef) (N n i : nat) : coef :=
  mix_coef w (c 0%nat) (c ((N + i) / I)%nat) (c (S ((N + i) / I))) (served_weight I T N n i).

(** Serving a list of requests one after the other. *)
Fixpoint serve {G : Type} (sample : nat -> nat -> G -> G * coef) (binom : G -> list R -> G * list R)
    (fuel : nat) (d : drifter G) (requests : list nat) : option (res (list (list coef))) :=
  match requests with
  | [] => Some (Ok [])
  | n :: rest =>
      match get_coefficients sample binom fuel d n None None with
      | None => None
      | Some (_, Err e) => Some (Err e)
      | Some (d', Ok rows) =>
          match serve sample binom fuel d' rest with
          | Some (Ok l) => Some (Ok (rows :: l))
          | other => other
          end
      end
  end.

(** What they should get. *)
Fixpoint served (I T : nat) (w : R) (c : nat -> coef) (N : nat) (requests : list nat) : list (list coef) :=
  match requests with
  | [] => []
  | n :: rest => tab n (served_row I T w c N n) :: served I T w c (N + n) rest
  end.

(** The total of a list of requests. *)
Definition total_rounds (l : list nat) : nat := fold_right plus 0%nat l.
