(** * S_Conc: probabilities of events, for statements about confidence bounds and consistency. *)

From Coq Require Import Reals List.
From Verif Require Import Num S_Base S_Prob.
Open Scope R_scope.

(** Probability that an outcome drawn from [d] satisfies the test [e]. *)
Definition prob {A : Type} (d : dist A) (e : A -> bool) : R := expect d (fun a => if e a then 1 else 0).

(** Mean and variance of a finite-support distribution over the reals. *)
Definition mean (d : dist R) : R := expect d (fun x => x).
Definition var (d : dist R) : R := expect d (fun x => (x - mean d) * (x - mean d)).

(** Every value the distribution can take lies in [lo, hi]. *)
Definition within (d : dist R) (lo hi : R) : Prop := forall x p, In (x, p) d -> p <> 0 -> lo <= x <= hi.

(** A call that was to return a lower bound of [m] did not: it returned a finite value above [m], or no finite value. *)
Definition bound_fails (r : res num) (m : R) : bool :=
  match r with Ok (Fin v) => if Rlt_dec m v then true else false | _ => true end.

(** A call that was to return a value within [eps] of [m] did not. *)
Definition estimate_off (r : res num) (m eps : R) : bool :=
  match r with Ok (Fin v) => if Rle_dec eps (Rabs (v - m)) then true else false | _ => true end.
