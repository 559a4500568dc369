(** * S_Cont: smoothing kernels and continuous-action logs.  No model code is used here. *)

From Coq Require Import Reals List ZArith.
From Verif Require Import Num S_Base.
Import ListNotations.
Open Scope R_scope.

(** The kernels, as in textbooks. *)
Definition K_triangular (u : R) : R := Rmax 0 (1 - Rabs u).
Definition K_epanechnikov (u : R) : R := if Rle_dec (Rabs u) 1 then 3 / 4 * (1 - u * u) else 0.
Definition K_cosine (u : R) : R := if Rle_dec (Rabs u) 1 then PI / 4 * cos (PI / 2 * u) else 0.
Definition K_gaussian (u : R) : R := / sqrt (2 * PI) * exp (- (u * u) / 2).

(** A continuous-action log. *)
Record clog := mkCLog {
  cl_n : nat;
  cl_r : nat -> R;       (* reward *)
  cl_b : nat -> R;       (* logged action *)
  cl_e : nat -> R;       (* action of the evaluation policy *)
  cl_p : nat -> R;       (* density of the logged action *)
  cl_q : nat -> R        (* reward model *)
}.
Definition c_rewards (l : clog) := tabF (cl_n l) (cl_r l).
Definition c_logged (l : clog) := tabF (cl_n l) (cl_b l).
Definition c_chosen (l : clog) := tabF (cl_n l) (cl_e l).
Definition c_pscores (l : clog) := tabF (cl_n l) (cl_p l).
Definition c_model (l : clog) := tabF (cl_n l) (cl_q l).

Record c_accepted (l : clog) : Prop := {
  ca_n : (0 < cl_n l)%nat;
  ca_p : forall i, (i < cl_n l)%nat -> 0 < cl_p l i
}.

(** Kernel weight of round i for kernel [K] and bandwidth [h]. *)
Definition c_weight (K : R -> R) (h : R) (l : clog) (i : nat) : R :=
  K ((cl_e l i - cl_b l i) / h) / (h * cl_p l i).

Definition spec_kipw K h l : R := avg (cl_n l) (fun i => c_weight K h l i * cl_r l i).
Definition spec_ksnipw K h l : R :=
  sumn (cl_n l) (fun i => c_weight K h l i * cl_r l i) / sumn (cl_n l) (c_weight K h l).
Definition spec_kdr K h l : R :=
  avg (cl_n l) (cl_q l) + avg (cl_n l) (fun i => c_weight K h l i * (cl_r l i - cl_q l i)).

(** One round: logged action [a] drawn with density [p], reward [r], evaluation action [e]. *)
Definition one_round (r a e p : R) : clog :=
  {| cl_n := 1; cl_r := fun _ => r; cl_b := fun _ => a; cl_e := fun _ => e; cl_p := fun _ => p;
     cl_q := fun _ => 0 |}.
