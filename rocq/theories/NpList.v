(** * NpList: the NumPy primitives used by the modelled code, on lists. *)

From Coq Require Import Reals List ZArith Bool Lia.
From Verif Require Import Num.
Import ListNotations.
Open Scope R_scope.

(** 2-D and 3-D arrays, row-major: [a3[round][action][position]]. *)
Notation arr1 := (list num) (only parsing).
Notation arr2 := (list (list num)) (only parsing).
Notation arr3 := (list (list (list num))) (only parsing).

(** [x.sum()] on floats. *)
Definition nsum (l : list num) : num := fold_right nadd (Fin 0) l.

(** [x.mean()]: NaN on an empty array (NumPy warns and returns nan = 0/0). *)
Definition nmean (l : list num) : num := ndiv (nsum l) (nnat (length l)).

(** [np.var(x)] (ddof = 0): mean of squared deviations from the mean. *)
Definition nvar (l : list num) : num :=
  nmean (map (fun x => nsqr (nsub x (nmean l))) l).

(** [x.max()] / [x.min()]: ValueError on an empty array, NaN propagates. *)
Definition nmaxl (l : list num) : res num :=
  match l with
  | [] => Err ValueError
  | x :: r => Ok (fold_left nmax r x)
  end.
(** Integer [x.max()] / [x.min()]. *)
Definition zmaxl (l : list Z) : res Z :=
  match l with
  | [] => Err ValueError
  | x :: r => Ok (fold_left Z.max r x)
  end.
Definition zminl (l : list Z) : res Z :=
  match l with
  | [] => Err ValueError
  | x :: r => Ok (fold_left Z.min r x)
  end.

(** Indexing with a Python/NumPy integer: negative indices count from the end,
    out of range is IndexError. *)
Definition np_get {A : Type} (l : list A) (i : Z) : res A :=
  let n := Z.of_nat (length l) in
  let j := (if Z.ltb i 0 then i + n else i)%Z in
  if (Z.leb 0 j && Z.ltb j n)%bool then
    match nth_error l (Z.to_nat j) with
    | Some x => Ok x
    | None => Err IndexError
    end
  else Err IndexError.

(** Broadcasting of two 1-D arrays: equal lengths, or one of them has length 1;
    anything else is ValueError ("operands could not be broadcast together"). *)
Definition bcast2 {A B C : Type} (f : A -> B -> C) (x : list A) (y : list B) : res (list C) :=
  if Nat.eqb (length x) (length y) then Ok (map (fun p => f (fst p) (snd p)) (combine x y))
  else match x, y with
       | [a], _ => Ok (map (fun b => f a b) y)
       | _, [b] => Ok (map (fun a => f a b) x)
       | _, _ => Err ValueError
       end.

(** Broadcasting inside fancy indexing raises IndexError instead
    ("shape mismatch: indexing arrays could not be broadcast together"). *)
Definition bcast2_idx {A B : Type} (x : list A) (y : list B) : res (list (A * B)) :=
  match bcast2 pair x y with
  | Ok l => Ok l
  | Err _ => Err IndexError
  end.

(** [np.arange(n)] *)
Definition arange (n : nat) : list Z := map Z.of_nat (seq 0 n).

(** [a[i0, i1, i2]] with three integer index arrays (broadcast together). *)
Definition fancy3 (a : arr3) (i0 i1 i2 : list Z) : res arr1 :=
  i01 <- bcast2_idx i0 i1 ;;
  i012 <- bcast2_idx i01 i2 ;;
  mapM (fun p =>
          row <- np_get a (fst (fst p)) ;;
          cell <- np_get row (snd (fst p)) ;;
          np_get cell (snd p)) i012.

(** [a[i0, :, i2]] with two integer index arrays: one row of actions per index pair. *)
Definition fancy3_row (a : arr3) (i0 i2 : list Z) : res arr2 :=
  i02 <- bcast2_idx i0 i2 ;;
  mapM (fun p =>
          row <- np_get a (fst p) ;;
          mapM (fun cell => np_get cell (snd p)) row) i02.

(** [np.average(v, weights=w)] of one row: ZeroDivisionError when the weights sum
    to zero. *)
Definition np_average1 (v w : list num) : res num :=
  let s := nsum w in
  if neqb s (Fin 0) then Err ZeroDivisionError
  else Ok (ndiv (nsum (map (fun p => nmul (fst p) (snd p)) (combine v w))) s).

(** [np.average(v, weights=w, axis=1)]: shapes must agree (TypeError otherwise);
    ZeroDivisionError when any row of weights sums to zero. *)
Definition np_average_axis1 (v w : arr2) : res arr1 :=
  if (Nat.eqb (length v) (length w)
      && forallb (fun p => Nat.eqb (length (fst p)) (length (snd p))) (combine v w))%bool
  then mapM (fun p => np_average1 (fst p) (snd p)) (combine v w)
  else Err TypeError.

(** Shape of a 3-D array (first row and first cell give the inner dimensions). *)
Definition dim1 (a : arr3) : nat := match a with [] => 0 | r :: _ => length r end.
Definition dim2 (a : arr3) : nat :=
  match a with [] => 0 | r :: _ => match r with [] => 0 | c :: _ => length c end end.
Definition shape3 (a : arr3) : nat * nat * nat := (length a, dim1 a, dim2 a).

(** [a.sum(axis=1)] of a 3-D array: per round, per position, sum over actions. *)
Definition nth_num (l : list num) (j : nat) : num := nth j l NaN.
Definition sum_axis1 (a : arr3) : arr2 :=
  map (fun row => map (fun j => nsum (map (fun cell => nth_num cell j) row))
                      (seq 0 (dim2 a))) a.

(** [np.isclose(x, 1)] with the default tolerances rtol=1e-5, atol=1e-8. *)
Definition isclose1 (x : num) : bool :=
  match x with
  | Fin a => Rleb (Rabs (a - 1)) (1 / 100000000 + 1 / 100000 * 1)
  | _ => false
  end.
Definition allclose1 (a : arr2) : bool := forallb (forallb isclose1) a.

(** [np.any(x <= 0)], [np.any(x < 0)] *)
Definition any_le0 (l : list num) : bool := existsb (fun x => nle x (Fin 0)) l.
Definition any_lt0 (l : list num) : bool := existsb (fun x => nlt x (Fin 0)) l.

(** [np.zeros(n, dtype=int)] *)
Definition zzeros (n : nat) : list Z := repeat 0%Z n.
