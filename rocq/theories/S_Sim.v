(** * S_Sim: specification vocabulary for the simulator. *)

From Coq Require Import Reals List ZArith Bool.
From Verif Require Import Num NpList M_Sim.
Import ListNotations.
Open Scope R_scope.

(** A policy that behaves like [pol] and additionally logs every [update_params] call it receives. *)
Definition call : Type := option nd * Z * num.
Definition recording {P : Type} (pol : policy P) : policy (P * list call) :=
  mkPolicy (pol_type pol)
    (fun s c => let r := pol_select pol (fst s) c in ((fst r, snd s), snd r))
    (fun s a r c => let u := pol_update pol (fst s) a r c in ((fst u, snd s ++ [(c, a, r)]), snd u)).

(** The context argument a policy gets for a round: contextual policies see it with a leading axis of length one. *)
Definition visible (ty : policy_type) (c : nd) : option nd :=
  match ty with
  | Contextual => Some (match c with Vec v => Mat [v] | Mat m => Cube [m] | Cube c => Rank4 [c] | Rank4 q => Rank4 q end)
  | _ => None
  end.

Definition no_round : bround := mkBround (Vec []) [] None.

(** The [update_params] call carrying the feedback of round [t]. *)
Definition feedback_of (ty : policy_type) (rs : list bround) (actions : list Z) (t : nat) : call :=
  (visible ty (br_context (nth t rs no_round)), nth t actions 0%Z,
   match np_get (br_rewards (nth t rs no_round)) (nth t actions 0%Z) with Ok r => r | Err _ => NaN end).

(** The delay of the action chosen in round [t]; [None] if the round has no delays. *)
Definition chosen_delay (rs : list bround) (actions : list Z) (t : nat) : option R :=
  match br_delays (nth t rs no_round) with
  | None => None
  | Some d => match np_get d (nth t actions 0%Z) with Ok v => Some v | Err _ => Some 0 end
  end.

(** The rounds whose feedback reaches the policy in round [s]: the round itself if it has no delays, else
    every earlier-or-equal round that is due now. *)
Definition delivered_at (D : nat -> option R) (s : nat) : list nat :=
  match D s with
  | None => [s]
  | Some _ => filter (fun t => match D t with Some d => Reqb (d + INR t) (INR s) | None => false end) (seq 0 (S s))
  end.
Definition delivered_before (D : nat -> option R) (n : nat) : list nat := concat (map (delivered_at D) (seq 0 n)).
Definition undelivered (D : nat -> option R) (n : nat) : list nat :=
  filter (fun t => negb (existsb (Nat.eqb t) (delivered_before D n))) (seq 0 n).

(** A policy that never raises and whose first choice is a valid index into [K] actions. *)
Definition total_policy {P : Type} (K : nat) (pol : policy P) : Prop :=
  pol_type pol <> Offline /\
  (forall p c, exists a l, snd (pol_select pol p c) = Ok (a :: l) /\ (- Z.of_nat K <= a < Z.of_nat K)%Z) /\
  (forall p a r c, snd (pol_update pol p a r c) = Ok tt).

(** Rounds with one reward, and if delayed one delay, per action. *)
Definition shaped_round (K : nat) (rd : bround) : Prop :=
  length (br_rewards rd) = K /\ match br_delays rd with None => True | Some d => length d = K end.

(** A simulator with the policy state and log put together. *)
Definition with_log {P : Type} (s : sim P) (log : list call) : sim (P * list call) :=
  mkSim (sm_policy s, log) (sm_lookup s) (sm_actions s) (sm_rewards s) (sm_truth s) (sm_contexts s) (sm_total s) (sm_played s).

(** One replica of the ground-truth simulation started from policy state [p] and sampler state [st]: the
    policy is asked, the action at the logged position is taken, a reward is drawn and fed back at once. *)
Inductive replica {P S : Type} (pol : policy P) (sampler : S -> arr1 -> Z -> S * res num) :
  P -> S -> list (Z * arr1) -> list Z -> S -> Prop :=
| replica_nil p st : replica pol sampler p st [] [] st
| replica_cons p st pos c rest p1 l a st1 r p2 acts st2 :
    let ctx := match pol_type pol with Contextual => Some (Mat [c]) | _ => None end in
    pol_type pol <> Offline ->
    pol_select pol p ctx = (p1, Ok l) -> np_get l pos = Ok a ->
    sampler st c a = (st1, Ok r) -> pol_update pol p1 a r ctx = (p2, Ok tt) ->
    replica pol sampler p2 st1 rest acts st2 ->
    replica pol sampler p st ((pos, c) :: rest) (a :: acts) st2.

(** [n] replicas, each from the same policy state; the sampler state runs on. *)
Inductive replicas {P S : Type} (pol : policy P) (sampler : S -> arr1 -> Z -> S * res num) (p : P)
    (rounds : list (Z * arr1)) : S -> list (list Z) -> Prop :=
| replicas_nil st : replicas pol sampler p rounds st []
| replicas_cons st acts st' rest :
    replica pol sampler p st rounds acts st' -> replicas pol sampler p rounds st' rest ->
    replicas pol sampler p rounds st (acts :: rest).

(** A logged round matches what the policy listed. *)
Definition matches (x : Z * num * Z * arr1 * list Z) : bool :=
  match x with (action, _, position, _, l) => match np_get l position with Ok a => Z.eqb action a | Err _ => false end end.
Definition replay_call (ty : policy_type) (x : Z * num * Z * arr1 * list Z) : call :=
  match x with (action, reward, _, context, _) =>
    (match ty with Contextual => Some (Mat [context]) | _ => None end, action, reward) end.
