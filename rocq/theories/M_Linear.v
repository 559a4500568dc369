(** * M_Linear: model of obp/policy/base.py (contextual part) and obp/policy/linear.py.

    A context is a 2-D array given as the list of its rows.  The attribute [theta_hat], written by every
    [select_action] and read only inside the same call, is a local value here; [reward_lists] and
    [context_lists], which linear policies never fill, are left out.  Random draws are arguments as in
    M_Policy; [mvn mean cov] is the value of [random_.multivariate_normal(mean, cov)]. *)

From Coq Require Import Reals List ZArith Bool.
From Verif Require Import Num NpList M_Utils M_Slate M_Multi M_Embed M_Policy.
Import ListNotations.
Open Scope R_scope.

(** base.py 104-120 and linear.py 41-53: attributes of a [BaseLinPolicy].  [b] has shape (dim, n_actions). *)
Record linp : Type := mkLinp {
  ln_dim : nat;
  ln_n_actions : nat;
  ln_len_list : nat;
  ln_batch_size : nat;
  ln_n_trial : nat;
  ln_action_counts : list Z;
  ln_A_inv : arr3;
  ln_b : arr2;
  ln_A_inv_temp : arr3;
  ln_b_temp : arr2 }.

(** [np.identity(d)] *)
(** Models: policy/linear.py 46, 51. *)
Definition np_identity (d : nat) : arr2 :=
  map (fun i => map (fun j => Fin (if Nat.eqb i j then 1 else 0)) (seq 0 d)) (seq 0 d).

(** base.py 110-115: the checks of [BaseContextualPolicy.__post_init__]. *)
Definition contextual_checks (dim n_actions len_list batch_size : Z) : res unit :=
  check_scalar_Z dim (Some 1%Z) None ;;;
  check_scalar_Z n_actions (Some 2%Z) None ;;;
  check_scalar_Z len_list (Some 1%Z) (Some n_actions) ;;;
  check_scalar_Z batch_size (Some 1%Z) None.

(** linear.py 41-53: [BaseLinPolicy.__post_init__]. *)
Definition lin_post_init (dim n_actions len_list batch_size : Z) : res linp :=
  contextual_checks dim n_actions len_list batch_size ;;;
  let d := Z.to_nat dim in
  let K := Z.to_nat n_actions in
  Ok (mkLinp d K (Z.to_nat len_list) (Z.to_nat batch_size) 0 (zzeros K)
        (repeat (np_identity d) K) (repeat (repeat (Fin 0) K) d)
        (repeat (np_identity d) K) (repeat (repeat (Fin 0) K) d)).

(** base.py 127-133: [BaseContextualPolicy.initialize]. *)
Definition lin_initialize (p : linp) : linp :=
  mkLinp (ln_dim p) (ln_n_actions p) (ln_len_list p) (ln_batch_size p) 0 (zzeros (ln_n_actions p))
         (ln_A_inv p) (ln_b p) (ln_A_inv_temp p) (ln_b_temp p).

(** [x.T] of a 2-D array with at least one row, [x.flatten()], and [x - y / c] for 2-D arrays. *)
(** Models: policy/linear.py 75, 78, 236. *)
Definition transpose (x : arr2) : arr2 :=
  map (fun j => map (fun r => nth_num r j) x) (seq 0 (match x with [] => 0%nat | r :: _ => length r end)).
(** Models: policy/linear.py 73-78. *)
Definition sub_div (x y : arr2) (c : num) : arr2 :=
  map (fun p => map (fun q => nsub (fst q) (ndiv (snd q) c)) (combine (fst p) (snd p))) (combine x y).

(** linear.py 73-79: the new value of [A_inv_temp[action]].  A context without rows raises IndexError at
    [[0][0]]. *)
Definition woodbury (A : arr2) (context : arr2) : res arr2 :=
  match context with
  | [] => Err IndexError
  | _ :: _ =>
      m1 <- matmul A (transpose context) ;;
      m2 <- matmul m1 context ;;
      m3 <- matmul m2 A ;;
      n1 <- matmul context A ;;
      n2 <- matmul n1 (transpose context) ;;
      r0 <- np_get n2 0 ;;
      s <- np_get r0 0 ;;
      Ok (sub_div A m3 (nadd (Fin 1) s))
  end.

(** linear.py 80: the new value of [b_temp] ([b_temp[:, action] += reward * context.flatten()]). *)
Definition add_column (b : arr2) (i : nat) (v : arr1) : res arr2 :=
  if Nat.eqb (length v) (length b)
  then Ok (map (fun p => set_nth (fst p) i (nadd (nth i (fst p) NaN) (snd p))) (combine b v))
  else Err ValueError.

(** linear.py 55-85: [BaseLinPolicy.update_params]; the object keeps whatever was written before an
    exception. *)
Definition lin_update_params (p : linp) (action : Z) (reward : num) (context : arr2) : linp * res unit :=
  let n_trial := S (ln_n_trial p) in
  let with_ ac Ainv b Ainvt bt :=
    mkLinp (ln_dim p) (ln_n_actions p) (ln_len_list p) (ln_batch_size p) n_trial ac Ainv b Ainvt bt in
  match np_index (ln_n_actions p) action with
  | Err e => (with_ (ln_action_counts p) (ln_A_inv p) (ln_b p) (ln_A_inv_temp p) (ln_b_temp p), Err e)
  | Ok i =>
      let ac := set_nth (ln_action_counts p) i (nth i (ln_action_counts p) 0 + 1)%Z in
      match woodbury (nth i (ln_A_inv_temp p) []) context with
      | Err e => (with_ ac (ln_A_inv p) (ln_b p) (ln_A_inv_temp p) (ln_b_temp p), Err e)
      | Ok A' =>
          let Ainvt := set_nth (ln_A_inv_temp p) i A' in
          match add_column (ln_b_temp p) i (map (nmul reward) (concat context)) with
          | Err e => (with_ ac (ln_A_inv p) (ln_b p) Ainvt (ln_b_temp p), Err e)
          | Ok bt =>
              let commit := Nat.eqb (n_trial mod ln_batch_size p) 0 in
              (with_ ac (if commit then Ainvt else ln_A_inv p) (if commit then bt else ln_b p) Ainvt bt, Ok tt)
          end
      end
  end.

(** linear.py 152-158, 227-233, 289-295: column [i] of [theta_hat], [A_inv[i] @ b[:, i]]. *)
Definition theta_col (p : linp) (i : nat) : res arr1 :=
  bi <- column (ln_b p) i ;;
  m <- matmul (nth i (ln_A_inv p) []) (map (fun x => [x]) bi) ;;
  column m 0.

(** [context @ theta].flatten() where the columns of theta are given (concatenation along axis 1). *)
(** Models: policy/linear.py 159, 241, 306. *)
Definition scores (context : arr2) (cols : list arr1) : res arr1 :=
  m <- mapM (fun row => mapM (fun c => v <- row_times row (map (fun x => [x]) c) ;; np_get v 0) cols) context ;;
  Ok (concat m).

(** linear.py 147-149 and 223-225: shape checks of the context ([check_array] with expected_dim=2 holds by
    the Coq type). *)
Definition check_context (context : arr2) : res unit :=
  raise_if (negb (Nat.eqb (length context) 1)) ValueError.

(** linear.py 133-164: [LinEpsilonGreedy.select_action]. *)
Definition lin_eg_select_action (argsort : list num -> list nat) (epsilon : num) (p : linp) (context : arr2)
    (u : R) (choice : list nat) : res (list nat) :=
  check_context context ;;;
  if nlt epsilon (Fin u) then
    theta <- mapM (theta_col p) (seq 0 (ln_n_actions p)) ;;
    predicted <- scores context theta ;;
    Ok (top_k argsort (ln_len_list p) predicted)
  else Ok choice.

(** linear.py 234-240: [sqrt(context @ A_inv[i] @ context.T)] for one action (context has one row). *)
Definition sigma_col (p : linp) (context : arr2) (i : nat) : res num :=
  n1 <- matmul context (nth i (ln_A_inv p) []) ;;
  n2 <- matmul n1 (transpose context) ;;
  r0 <- np_get n2 0 ;;
  s <- np_get r0 0 ;;
  Ok (nsqrt s).

(** linear.py 209-242: [LinUCB.select_action]. *)
Definition lin_ucb_select_action (argsort : list num -> list nat) (epsilon : num) (p : linp) (context : arr2)
  : res (list nat) :=
  check_context context ;;;
  theta <- mapM (theta_col p) (seq 0 (ln_n_actions p)) ;;
  sigma <- mapM (sigma_col p context) (seq 0 (ln_n_actions p)) ;;
  predicted <- scores context theta ;;
  ucb <- bcast2 nadd predicted (map (nmul epsilon) sigma) ;;
  Ok (top_k argsort (ln_len_list p) ucb).

(** linear.py 275-307: [LinTS.select_action] (no check of the context's shape). *)
Definition lin_ts_select_action (argsort : list num -> list nat) (p : linp) (context : arr2)
    (mvn : nat -> arr1 -> arr2 -> arr1) : res (list nat) :=
  theta <- mapM (theta_col p) (seq 0 (ln_n_actions p)) ;;
  let sampled := map (fun i => mvn i (nth i theta []) (nth i (ln_A_inv p) [])) (seq 0 (ln_n_actions p)) in
  predicted <- scores context sampled ;;
  Ok (top_k argsort (ln_len_list p) predicted).
