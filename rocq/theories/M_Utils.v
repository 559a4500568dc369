(** * M_Utils: model of obp/utils.py. *)

From Coq Require Import Reals List ZArith Bool.
From Verif Require Import Num NpList.
Import ListNotations.
Open Scope R_scope.

(** sklearn.utils.check_scalar on a float with optional bounds (inclusive):
    ValueError when below [min_val] or above [max_val]; NaN passes both comparisons.
    The target-type check is represented by the Coq type. *)
(** Models: utils.py 41. *)
Definition check_scalar (x : num) (min_val max_val : option num) : res unit :=
  (match min_val with Some m => raise_if (nlt x m) ValueError | None => Ok tt end) ;;;
  (match max_val with Some m => raise_if (nlt m x) ValueError | None => Ok tt end).

(** Models: utils.py 42. *)
Definition check_scalar_Z (x : Z) (min_val max_val : option Z) : res unit :=
  (match min_val with Some m => raise_if (Z.ltb x m) ValueError | None => Ok tt end) ;;;
  (match max_val with Some m => raise_if (Z.ltb m x) ValueError | None => Ok tt end).

(** utils.py 16-42: [check_confidence_interval_arguments].  Raises unless
    0 <= alpha <= 1 and n_bootstrap_samples >= 1 (random_state's type check is not modelled). *)
Definition check_confidence_interval_arguments (alpha : num) (n_boot : Z) : res unit :=
  check_scalar alpha (Some (Fin 0)) (Some (Fin 1)) ;;;
  check_scalar_Z n_boot (Some 1%Z) None.

(** Insertion sort of floats (finite values; the sort inside np.percentile). *)
(** Models: utils.py 81-82. *)
Fixpoint rinsert (x : R) (l : list R) : list R :=
  match l with
  | [] => [x]
  | y :: r => if Rleb x y then x :: y :: r else y :: rinsert x r
  end.
(** Models: utils.py 81-82. *)
Definition rsort (l : list R) : list R := fold_right rinsert [] l.

(** [np.percentile(x, 100*q)] with linear interpolation (NumPy's default): virtual index
    q*(m-1), interpolated between its floor and the next sorted element. *)
Definition quantile (l : list R) (q : R) : R :=
  let s := rsort l in
  let h := q * INR (length l - 1) in
  let i := Z.to_nat (Int_part h) in
  let lo := nth i s 0 in
  let hi := nth (Nat.min (S i) (length l - 1)) s 0 in
  lo + (hi - lo) * frac_part h.

Definition Rsum (l : list R) : R := fold_right Rplus 0 l.
Record interval := { ci_mean : num; ci_lower : num; ci_upper : num }.

(** Real content of an array all of whose entries are finite. *)
(** Models: utils.py 81-82. *)
Fixpoint all_fin (l : list num) : option (list R) :=
  match l with
  | [] => Some []
  | Fin r :: t => match all_fin t with Some rs => Some (r :: rs) | None => None end
  | _ :: _ => None
  end.

(** [np.percentile] of floats.  Simplification: NaN as soon as one entry is not finite (NumPy
    returns NaN for a NaN entry; interpolation involving infinities is not modelled). *)
(** Models: utils.py 81-82. *)
Definition npercentile (l : list num) (q : R) : num :=
  match all_fin l with Some rs => Fin (quantile rs q) | None => NaN end.

(** utils.py 45-87: [estimate_confidence_interval_by_bootstrap].  [choice b j] is the RNG's answer:
    the index of the j-th element drawn by [random_.choice(samples, size=n)] in replicate [b].
    The dictionary keys (strings) are record fields. *)
Definition boot_samples (samples : list num) (n_boot : Z) (choice : nat -> nat -> nat) : list num :=
  map (fun b => nmean (map (fun j => nth (choice b j) samples NaN) (seq 0 (length samples))))
      (seq 0 (Z.to_nat n_boot)).
Definition estimate_confidence_interval_by_bootstrap
    (samples : list num) (alpha : R) (n_boot : Z) (choice : nat -> nat -> nat) : res interval :=
  check_confidence_interval_arguments (Fin alpha) n_boot ;;;
  let bs := boot_samples samples n_boot choice in
  Ok {| ci_mean := nmean bs;
        ci_lower := npercentile bs (alpha / 2);
        ci_upper := npercentile bs (1 - alpha / 2) |}.

(** [np.cumsum] of one row. *)
(** Models: utils.py 111. *)
Fixpoint cumsum_from (acc : R) (l : list R) : list R :=
  match l with
  | [] => []
  | x :: r => (acc + x) :: cumsum_from (acc + x) r
  end.
(** Models: utils.py 111. *)
Definition cumsum (l : list R) : list R := cumsum_from 0 l.

(** [flg.argmax()] of a boolean row: index of the first True, 0 if there is none. *)
(** Models: utils.py 113. *)
Fixpoint find_true (l : list bool) (i : nat) : option nat :=
  match l with
  | [] => None
  | b :: r => if b then Some i else find_true r (S i)
  end.
(** Models: utils.py 113. *)
Definition argmax_bool (l : list bool) : nat :=
  match find_true l 0 with Some i => i | None => 0%nat end.

(** utils.py 90-114: [sample_action_fast]; [us] are the uniform draws, one per row. *)
Definition sample_action_row (row : list R) (u : R) : nat :=
  argmax_bool (map (fun c => Rltb u c) (cumsum row)).
Definition sample_action_fast (action_dist : list (list R)) (us : list R) : list nat :=
  map (fun p => sample_action_row (fst p) (snd p)) (combine action_dist us).

(** Functional update of one cell. *)
(** Models: array assignments, as policy/contextfree.py 88-89, 233-235. *)
Fixpoint set_nth {A : Type} (l : list A) (i : nat) (v : A) : list A :=
  match l, i with
  | [], _ => []
  | _ :: r, O => v :: r
  | x :: r, S j => x :: set_nth r j v
  end.

(** Position of a NumPy index in a list of length [n] (IndexError when out of range). *)
(** Models: array indexing, as ope/estimators.py 334. *)
Definition np_index (n : nat) (i : Z) : res nat :=
  let j := (if Z.ltb i 0 then i + Z.of_nat n else i)%Z in
  if (Z.leb 0 j && Z.ltb j (Z.of_nat n))%bool then Ok (Z.to_nat j) else Err IndexError.

(** utils.py 117-147: [convert_to_action_dist].  [action_dist[arange(n), sel[:,pos], pos] = 1]
    for each position in turn: per round, the loop over positions sets one cell each. *)
Definition convert_round (n_actions len_list : nat) (sel : list Z) : res (list (list num)) :=
  let zero := repeat (repeat (Fin 0) len_list) n_actions in
  fold_left (fun acc pos =>
               row <- acc ;;
               a <- np_get sel (Z.of_nat pos) ;;
               i <- np_index n_actions a ;;
               Ok (set_nth row i (set_nth (nth i row []) pos (Fin 1))))
            (seq 0 len_list) (Ok zero).
Definition convert_to_action_dist (n_actions len_list : nat) (selected_actions : list (list Z))
  : res arr3 :=
  mapM (convert_round n_actions len_list) selected_actions.

Definition shape_eqb (a b : arr3) : bool :=
  (Nat.eqb (length a) (length b) && Nat.eqb (dim1 a) (dim1 b) && Nat.eqb (dim2 a) (dim2 b))%bool.

(** utils.py 313-412: [check_ope_inputs].  [None] is Python's None.  [check_array]'s isinstance
    and ndim tests are represented by the types ([None] where an array is required is ValueError). *)
Definition check_ope_inputs (action_dist : arr3) (position action : option (list Z))
    (reward pscore : option arr1) (q_hat : option arr3) (eiw : option arr1) : res unit :=
  (* 349-351 *)
  raise_if (negb (allclose1 (sum_axis1 action_dist))) ValueError ;;;
  (* 354-369 *)
  (match position with
   | Some p =>
       raise_if (negb (Nat.eqb (length p) (length action_dist))) ValueError ;;;
       mn <- zminl p ;;
       raise_if (negb (Z.leb 0 mn)) ValueError ;;;
       mx <- zmaxl p ;;
       raise_if (Z.leb (Z.of_nat (dim2 action_dist)) mx) ValueError
   | None => raise_if (Nat.ltb 1 (dim2 action_dist)) ValueError
   end) ;;;
  (* 372-376 *)
  (match q_hat with
   | Some q => raise_if (negb (shape_eqb q action_dist)) ValueError
   | None => Ok tt
   end) ;;;
  (* 378-384 *)
  (match eiw with
   | Some w =>
       match action with
       | None => Err AttributeError
       | Some a =>
           raise_if (negb (Nat.eqb (length a) (length w))) ValueError ;;;
           raise_if (any_lt0 w) ValueError
       end
   | None => Ok tt
   end) ;;;
  (* 387-401 *)
  (match action, reward with
   | None, None => Ok tt
   | Some a, Some r =>
       raise_if (negb (Nat.eqb (length a) (length r))) ValueError ;;;
       mn <- zminl a ;;
       raise_if (negb (Z.leb 0 mn)) ValueError ;;;
       mx <- zmaxl a ;;
       raise_if (negb (Z.ltb mx (Z.of_nat (dim1 action_dist)))) ValueError
   | _, _ => Err ValueError
   end) ;;;
  (* 404-412 *)
  (match pscore with
   | Some p =>
       match action, reward with
       | Some a, Some r =>
           raise_if (negb (Nat.eqb (length a) (length r) && Nat.eqb (length r) (length p))) ValueError ;;;
           raise_if (any_le0 p) ValueError
       | _, _ => Err AttributeError
       end
   | None => Ok tt
   end).

(** utils.py 977-979: [sigmoid].  [ex] stands for np.exp, so that the arguments at which the code
    evaluates exponentials can be talked about; [sigmoid] is the instance at the true exp. *)
Definition sigmoid_with (ex : R -> R) (x : R) : R := ex (Rmin x 0) / (1 + ex (- Rabs x)).
Definition sigmoid : R -> R := sigmoid_with exp.

(** Largest element of a non-empty list. *)
(** Models: utils.py 984. *)
Definition Rmaxl (l : list R) : R :=
  match l with [] => 0 | x :: r => fold_left Rmax r x end.

(** utils.py 982-987: [softmax] of one row of a matrix (axis=1): subtract the row maximum,
    exponentiate, divide by the row sum.  (np.max of an empty row raises; rows are non-empty.) *)
Definition softmax_row_with (ex : R -> R) (x : list R) : list R :=
  let b := Rmaxl x in
  let numerator := map (fun v => ex (v - b)) x in
  let denominator := Rsum numerator in
  map (fun v => v / denominator) numerator.
Definition softmax_row : list R -> list R := softmax_row_with exp.
Definition softmax (x : list (list R)) : list (list R) := map softmax_row x.
