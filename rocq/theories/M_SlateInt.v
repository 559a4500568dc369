(** * M_SlateInt: the per-position self-normalised slate estimators on an integer array of behaviour propensities. *)

From Coq Require Import Reals List ZArith Bool.
From Verif Require Import Num NpList M_Utils M_Slate.
Import ListNotations.
Open Scope R_scope.

(** numpy's conversion of a float to an integer, applied when a float is assigned into an integer array: the fraction is dropped.
    For nan and the infinities the result is whatever the platform's cast gives ([cast]; INT64_MIN on x86). *)
Definition drop_fraction (x : R) : Z := if Rle_dec 0 x then Int_part x else (- Int_part (- x))%Z.
Definition to_integer (cast : num -> Z) (x : num) : num :=
  match x with Fin r => Fin (IZR (drop_fraction r)) | _ => Fin (IZR (cast x)) end.

(** ope/estimators_slate.py 953-959 when [behavior_policy_pscore] has an integer dtype: [np.zeros_like] (953, 954) makes both
    [estimated_rewards] and [iw] integer arrays, so that the assignments of 957 and 958 convert what they store.
    Rows whose position is not in [0, len_list) keep the initial zero. *)
Definition sn_position_rounds_int (cast : num -> Z) (len_list : nat) (reward : arr1) (position : list Z) (p pe : arr1) : res arr1 :=
  ratio <- bcast2 ndiv pe p ;;
  let iw := map (to_integer cast) ratio in
  Ok (map (fun x => let '(pos, (r, w)) := x in
             if (Z.leb 0 pos && Z.ltb pos (Z.of_nat len_list))%bool
             then to_integer cast (ndiv (nmul r w) (nmean (at_position pos position iw)))
             else Fin 0)
        (combine position (combine reward iw))).

(** Models: ope/estimators_slate.py 1038-1076 and 1079-1120 ([estimate_policy_value]) for integer behaviour propensities. *)
Definition sniips_int_value (cast : num -> Z) (len_list : nat) := slate_value check_iips_inputs (sn_position_rounds_int cast len_list).
Definition snrips_int_value (cast : num -> Z) (len_list : nat) := slate_value check_rips_inputs (sn_position_rounds_int cast len_list).
