(** * M_Cont: model of obp/ope/estimators_continuous.py and of the continuous checks in
    obp/utils.py.  Action arrays are float arrays (an integer array makes [u /= bandwidth] a
    casting error; dtypes are not modelled). *)

From Coq Require Import Reals List ZArith Bool.
From Verif Require Import Num NpList M_Utils M_Estimators.
Import ListNotations.
Open Scope R_scope.

(** [np.clip(u, -1.0, 1.0)] *)
(** Models: ope/estimators_continuous.py 24, 35, 41. *)
Definition clip11 (u : num) : num := nmin (nmax u (Fin (-1))) (Fin 1).

(** [np.cos] *)
(** Models: ope/estimators_continuous.py 42. *)
Definition ncos (x : num) : num := match x with Fin a => Fin (cos a) | _ => NaN end.

(** estimators_continuous.py 22-25 *)
Definition triangular_kernel (u : num) : num := nsub (Fin 1) (nabs (clip11 u)).
(** estimators_continuous.py 28-30 *)
Definition gaussian_kernel (u : num) : num :=
  ndiv (nexp (ndiv (nopp (nsqr u)) (Fin 2))) (Fin (sqrt (2 * PI))).
(** estimators_continuous.py 33-36 *)
Definition epanechnikov_kernel (u : num) : num :=
  nmul (Fin (3 / 4)) (nsub (Fin 1) (nsqr (clip11 u))).
(** estimators_continuous.py 39-42 *)
Definition cosine_kernel (u : num) : num :=
  nmul (Fin (PI / 4)) (ncos (ndiv (nmul (clip11 u) (Fin PI)) (Fin 2))).

(** estimators_continuous.py 45-50; other names are rejected by [__post_init__] (119-122), a check
    represented by this type. *)
Inductive kernel_name := Gaussian | Epanechnikov | Triangular | Cosine.
Definition kernel_functions (k : kernel_name) : num -> num :=
  match k with
  | Gaussian => gaussian_kernel
  | Epanechnikov => epanechnikov_kernel
  | Triangular => triangular_kernel
  | Cosine => cosine_kernel
  end.

(** estimators_continuous.py 123-125, 341-343, 566-568: the constructor's bandwidth check. *)
Definition kernelized_init (bandwidth : num) : res unit := check_scalar bandwidth (Some (Fin 0)) None.

(** utils.py 536-619: [check_continuous_ope_inputs]; [None] where an array is required is
    ValueError. *)
Definition check_continuous_ope_inputs (a_e : arr1) (a_b reward pscore q_hat : option arr1) : res unit :=
  (match q_hat with
   | Some q => raise_if (negb (Nat.eqb (length q) (length a_e))) ValueError
   | None => Ok tt
   end) ;;;
  (match a_b, reward with
   | None, None => Ok tt
   | Some a, Some r =>
       raise_if (negb (Nat.eqb (length a) (length r))) ValueError ;;;
       raise_if (negb (Nat.eqb (length a) (length a_e))) ValueError
   | _, _ => Err ValueError
   end) ;;;
  (match pscore with
   | None => Ok tt
   | Some p =>
       match a_b, reward with
       | Some a, Some r =>
           raise_if (negb (Nat.eqb (length a) (length r) && Nat.eqb (length r) (length p))) ValueError ;;;
           raise_if (any_le0 p) ValueError
       | _, _ => Err AttributeError
       end
   end).

(** utils.py 472-533: [check_continuous_bandit_feedback_inputs]; [n_context] is
    [context.shape[0]]. *)
Definition check_continuous_bandit_feedback_inputs (n_context : nat) (action reward : arr1)
    (expected_reward pscore : option arr1) : res unit :=
  (match expected_reward with
   | Some q => raise_if (negb (Nat.eqb n_context (length action) && Nat.eqb (length action) (length reward)
                               && Nat.eqb (length reward) (length q))) ValueError
   | None => Ok tt
   end) ;;;
  (match pscore with
   | Some p =>
       raise_if (negb (Nat.eqb n_context (length action) && Nat.eqb (length action) (length reward)
                       && Nat.eqb (length reward) (length p))) ValueError ;;;
       raise_if (any_le0 p) ValueError
   | None => Ok tt
   end).

(** estimators_continuous.py 159-160: [u = (a_e - a_b) / bandwidth]. *)
Definition kernel_arg (bandwidth : num) (a_e a_b : arr1) : res arr1 :=
  d <- bcast2 nsub a_e a_b ;; Ok (map (fun x => ndiv x bandwidth) d).

(** estimators_continuous.py 127-163: [KernelizedInverseProbabilityWeighting._estimate_round_rewards]. *)
Definition kipw_round (k : kernel_name) (h : num) (reward a_b pscore a_e : arr1) : res arr1 :=
  u <- kernel_arg h a_e a_b ;;
  kr <- bcast2 nmul (map (kernel_functions k) u) reward ;;
  e <- bcast2 ndiv kr pscore ;;
  Ok (map (fun x => ndiv x h) e).

(** estimators_continuous.py 345-389: [KernelizedSelfNormalizedInverseProbabilityWeighting]. *)
Definition ksnipw_round (k : kernel_name) (h : num) (reward a_b pscore a_e : arr1) : res arr1 :=
  u <- kernel_arg h a_e a_b ;;
  kr <- bcast2 nmul (map (kernel_functions k) u) reward ;;
  e <- bcast2 ndiv kr pscore ;;
  w <- bcast2 ndiv (map (kernel_functions k) u) pscore ;;
  Ok (map (fun x => ndiv x (nmean w)) e).

(** estimators_continuous.py 570-613: [KernelizedDoublyRobust._estimate_round_rewards]. *)
Definition kdr_round (k : kernel_name) (h : num) (q_hat reward a_b pscore a_e : arr1) : res arr1 :=
  u <- kernel_arg h a_e a_b ;;
  d <- bcast2 nsub reward q_hat ;;
  kr <- bcast2 nmul (map (kernel_functions k) u) d ;;
  e <- bcast2 ndiv kr pscore ;;
  iadd (map (fun x => ndiv x h) e) q_hat.

(** estimators_continuous.py 165-215, 391-441, 615-676: [estimate_policy_value], and 217-286, 443-512,
    678-758: [estimate_interval]: validation, then the round values. *)
Definition k_rounds (round : arr1 -> arr1 -> arr1 -> arr1 -> res arr1) (q_hat : option arr1)
    (reward a_b pscore a_e : arr1) : res arr1 :=
  check_continuous_ope_inputs a_e (Some a_b) (Some reward) (Some pscore) q_hat ;;;
  round reward a_b pscore a_e.

Definition k_value round q_hat reward a_b pscore a_e : res num :=
  rr <- k_rounds round q_hat reward a_b pscore a_e ;; Ok (nmean rr).
Definition k_interval round q_hat reward a_b pscore a_e (alpha : R) (n_boot : Z)
    (choice : nat -> nat -> nat) : res interval :=
  rr <- k_rounds round q_hat reward a_b pscore a_e ;;
  estimate_confidence_interval_by_bootstrap rr alpha n_boot choice.

Definition kipw_value k h := k_value (kipw_round k h) None.
Definition ksnipw_value k h := k_value (ksnipw_round k h) None.
Definition kdr_value k h q_hat := k_value (kdr_round k h q_hat) (Some q_hat).
