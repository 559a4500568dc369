(** * S_NN: vocabulary for the network learners. *)

From Coq Require Import Reals List ZArith Permutation.
From Verif Require Import Num S_Base S_Offline M_Offline M_Init M_NN.
Import ListNotations.
Open Scope R_scope.

(** Parameters of the shapes an architecture prescribes. *)
Definition fits (ar : arch) (params : list layer) : Prop :=
  Forall2 (fun l (s : Z * Z) => length (ly_b l) = Z.to_nat (snd s) /\ length (ly_w l) = Z.to_nat (snd s) /\
             Forall (fun row => length row = Z.to_nat (fst s)) (ly_w l)) params (ar_layers ar).

(** [f], from rows of length [d] to rows of length [K], is affine. *)
Definition affine (d K : nat) (f : list R -> list R) : Prop :=
  exists (W : nat -> nat -> R) (c : nat -> R), forall x, length x = d ->
    f x = tab K (fun a => sumn d (fun j => W a j * nth j x 0) + c a).

(** Every coordinate is at most [B] in absolute value; every coordinate differs by at most [D]. *)
Definition bounded (B : R) (x : list R) : Prop := Forall (fun v => Rabs v <= B) x.
Definition close (D : R) (x y : list R) : Prop := Forall2 (fun u v => Rabs (u - v) <= D) x y.

(** Batches of [b] elements, the last of which may be shorter. *)
Definition in_batches_of {A : Type} (b : nat) (l : list (list A)) : Prop :=
  Forall (fun x => (1 <= length x <= b)%nat) l /\ forall i, (S i < length l)%nat -> length (nth i l []) = b.

(** The choice probabilities [predict_proba] returns: action [a] in context [x] gets [p x a], whatever the other rows. *)
Definition plays (dim K : nat) (ar : arch) (params : list layer) (p : list R -> nat -> R) : Prop :=
  forall contexts, Forall (fun x => length x = dim) contexts ->
    policy_predict_proba dim ar params dim contexts = Ok (map (fun x => tab K (fun a => [Fin (p x a)])) contexts).

(** The data of the rounds [idx], in that order, with reward model [q]. *)
Definition batch_at (K : nat) (ctx : nat -> list num) (a : nat -> nat) (r p : nat -> R) (q : list num -> nat -> R) (idx : list nat) : batch :=
  mkBatch (length idx) K (fun i => a (nth i idx 0%nat)) (fun i => r (nth i idx 0%nat)) (fun i => p (nth i idx 0%nat))
    (fun i => q (ctx (nth i idx 0%nat))).
(** What a policy [pi] (a function of the context) plays in these rounds. *)
Definition played_at (ctx : nat -> list num) (pi : list num -> nat -> R) (idx : list nat) (i : nat) : nat -> R :=
  pi (ctx (nth i idx 0%nat)).

(** Positions are absent, or one per round; a single-position learner needs none. *)
Definition positions_for (n : nat) (len_list : Z) (position : option (list Z)) : Prop :=
  match position with None => len_list = 1%Z | Some q => exists v, q = tabZ n v end.

(** Training settings under which every epoch has rounds to train on. *)
Definition trainable (cfg : train_cfg) (n : nat) (perm : list nat) (sh : nat -> bool -> list nat -> list nat) : Prop :=
  (1 <= n)%nat /\ (forall b, tc_batch cfg = Some b -> (1 <= b)%Z) /\
  (tc_early cfg = true -> (2 <= n)%nat /\ 0 < tc_valfrac cfg < 1) /\
  Permutation perm (seq 0 n) /\ (forall k v l, Permutation (sh k v l) l).

(** Mean squared error of predictions [q] over the rounds [idx]. *)
Definition squared_error (r q : nat -> R) (idx : list nat) : R :=
  avg (length idx) (fun i => (r (nth i idx 0%nat) - q (nth i idx 0%nat)) ^ 2).

(** Activations named by the hyper-parameter, and the scores of a multi-layer perceptron on inputs x 0, ..., x (d-1). *)
Definition activation_spec (a : activation) (v : R) : R :=
  match a with
  | AIdentity => v
  | ALogistic => / (1 + exp (- v))
  | ATanh => tanh v
  | ARelu => Rmax 0 v
  | AElu => if Rle_dec 0 v then v else exp v - 1
  end.
Fixpoint mlp (sigma : R -> R) (layers : list layer) (d : nat) (x : nat -> R) : nat -> R :=
  match layers with
  | [] => x
  | l :: r =>
      let unit j := sumn d (fun k => nth k (nth j (ly_w l) []) 0 * x k) + nth j (ly_b l) 0 in
      match r with [] => unit | _ => mlp sigma r (length (ly_w l)) (fun j => sigma (unit j)) end
  end.
