(** * S_SlateReg: vocabulary for the slate reward model.  No model code is used here. *)

From Coq Require Import Reals List ZArith.
From Verif Require Import Num S_Base.
Import ListNotations.
Open Scope R_scope.

(** Logged slates: contexts; per round and position the action, the reward, the two joint (cascade) propensities; and
    the evaluation policy at each position given the logged earlier actions. *)
Record slog := mkSlog {
  sg_n : nat;
  sg_x : nat -> list num;
  sg_a : nat -> nat -> nat;
  sg_r : nat -> nat -> R;
  sg_p : nat -> nat -> R;
  sg_pe : nat -> nat -> R;
  sg_pi : nat -> nat -> nat -> R     (* round, position, action *)
}.

Record slog_ok (K L : nat) (l : slog) : Prop := {
  go_n : (0 < sg_n l)%nat;
  go_L : (0 < L)%nat;
  go_a : forall i p, (i < sg_n l)%nat -> (p < L)%nat -> (sg_a l i p < K)%nat;
  go_p : forall i p, (i < sg_n l)%nat -> (p < L)%nat -> 0 < sg_p l i p <= 1;
  go_pe : forall i p, (i < sg_n l)%nat -> (p < L)%nat -> 0 < sg_pe l i p <= 1;
  go_pi : forall i p, (i < sg_n l)%nat -> (p < L)%nat -> sumn K (sg_pi l i p) = 1
}.

(** The one-dimensional arrays a user passes: round by round, position by position (and action by action). *)
Definition flat (n L : nat) {A : Type} (g : nat -> nat -> A) : list A := concat (tab n (fun i => tab L (g i))).
Definition flat3 (n L K : nat) {A : Type} (g : nat -> nat -> nat -> A) : list A :=
  concat (tab n (fun i => concat (tab L (fun p => tab K (g i p))))).

(** The features of a slate prefix: the context, then the actions of the prefix as numbers. *)
Definition prefix_row (x : list num) (pre : list nat) : list num := x ++ map (fun a => Fin (INR a)) pre.
(** The actions of round [i] at positions before [p]. *)
Definition before (l : slog) (i p : nat) : list nat := tab p (sg_a l i).

(** A base regressor: [fit] starts from scratch and succeeds, predictions are row by row and finite. *)
Definition plain_regressor {M : Type} (rfit : M -> list (list num) -> list num -> list num -> res M)
    (rpred : M -> list (list num) -> res (list num)) (train : list (list num) -> list R -> list R -> M) (f : M -> list num -> R) : Prop :=
  (forall m X y w, rfit m X (map Fin y) (map Fin w) = Ok (train X y w)) /\
  (forall m X, rpred m X = Ok (map (fun x => Fin (f m x)) X)).

(** The regression target of round [i] at position [p]: its reward, plus the evaluation policy's average, over the next
    action, of the next position's model. *)
Definition target {M : Type} (f : M -> list num -> R) (K L : nat) (l : slog) (md : nat -> M) (p i : nat) : R :=
  sg_r l i p +
  if Nat.eqb (S p) L then 0
  else sumn K (fun b => sg_pi l i (S p) b * f (md (S p)) (prefix_row (sg_x l i) (before l i (S p) ++ [b]))).

(** Sample weights: ones, or the ratio of the joint propensities up to the position. *)
Definition slate_weight (iw : bool) (l : slog) (p i : nat) : R := if iw then sg_pe l i p / sg_p l i p else 1.

(** A slate environment: mean reward of the last action of a prefix, and the evaluation policy after a prefix. *)
Record senv_r := mkSenv { se_mean : list num -> list nat -> R; se_pol : list num -> list nat -> nat -> R }.

(** Value of a prefix with [k] positions to go: the reward of its last action plus what the policy collects later. *)
Fixpoint prefix_value (K : nat) (e : senv_r) (k : nat) (x : list num) (pre : list nat) : R :=
  se_mean e x pre +
  match k with
  | O => 0
  | S k' => sumn K (fun b => se_pol e x pre b * prefix_value K e k' x (pre ++ [b]))
  end.

(** The log comes from the environment, with noise-free rewards; contexts have a common length. *)
Definition log_from (L d : nat) (e : senv_r) (l : slog) : Prop :=
  (forall i, (i < sg_n l)%nat -> length (sg_x l i) = d) /\
  (forall i p, (i < sg_n l)%nat -> (p < L)%nat -> sg_r l i p = se_mean e (sg_x l i) (before l i (S p))) /\
  (forall i p b, (i < sg_n l)%nat -> (p < L)%nat -> sg_pi l i p b = se_pol e (sg_x l i) (before l i p) b).

(** Every action was tried after every logged prefix. *)
Definition all_continuations (K L : nat) (l : slog) : Prop :=
  forall i p b, (i < sg_n l)%nat -> (p < L)%nat -> (b < K)%nat ->
    exists j, (j < sg_n l)%nat /\ sg_x l j = sg_x l i /\ before l j p = before l i p /\ sg_a l j p = b.

(** A regressor that reproduces targets which are a function of the row. *)
Definition interpolates {M : Type} (train : list (list num) -> list R -> list R -> M) (f : M -> list num -> R) : Prop :=
  forall X w g, (forall v, In v w -> 0 < v) -> length w = length X -> forall x, In x X -> f (train X (map g X) w) x = g x.

(** What [fit] accepts: one entry per round and position, integer actions below the number of actions, propensities in
    (0,1] (or NaN), and an action distribution that sums to one, up to the tolerance, in each block of [K]. *)
Record slate_fit_inputs (K L n : nat) (action : list Z) (reward pscore epscore dist : list num) : Prop := {
  fi_some : (0 < n * L)%nat;
  fi_a_len : length action = (n * L)%nat;
  fi_r_len : length reward = (n * L)%nat;
  fi_p_len : length pscore = (n * L)%nat;
  fi_pe_len : length epscore = (n * L)%nat;
  fi_d_len : length dist = (n * L * K)%nat;
  fi_a : List.Forall (fun a => 0 <= a < Z.of_nat K)%Z action;
  fi_p : List.Forall (fun p => p = NaN \/ exists r, p = Fin r /\ 0 < r <= 1) pscore;
  fi_pe : List.Forall (fun p => p = NaN \/ exists r, p = Fin r /\ 0 < r <= 1) epscore;
  fi_d : forall j, (j < n * L)%nat -> exists v,
    fold_right nadd (Fin 0) (firstn K (skipn (j * K) dist)) = Fin v /\ Rabs (1 - v) <= 1 / 100000000 + 1 / 100000 * Rabs v
}.
