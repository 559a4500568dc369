(** * S_Reg: vocabulary for the reward, propensity and importance-weight models.  Only the names of the fitting
    methods are taken from the model. *)

From Coq Require Import Reals List ZArith.
From Verif Require Import Num S_Base M_Reg.
Import ListNotations.
Open Scope R_scope.

(** A log: contexts, actions, rewards, propensities, positions and evaluation policy (round, action, position). *)
Record rlog := mkLog {
  rl_n : nat;
  rl_x : nat -> list num;
  rl_a : nat -> nat;
  rl_r : nat -> num;
  rl_p : nat -> R;
  rl_pos : nat -> nat;
  rl_pi : nat -> nat -> nat -> R
}.

(** The log fits a model with [K] actions and [L] positions. *)
Record rlog_ok (K L : nat) (l : rlog) : Prop := {
  ro_n : (0 < rl_n l)%nat;
  ro_a : forall i, (i < rl_n l)%nat -> (rl_a l i < K)%nat;
  ro_p : forall i, (i < rl_n l)%nat -> 0 < rl_p l i;
  ro_pos : forall i, (i < rl_n l)%nat -> (rl_pos l i < L)%nat;
  ro_pi : forall i p, (i < rl_n l)%nat -> (p < L)%nat -> sumn K (fun a => rl_pi l i a p) = 1
}.

(** The optional arguments.  A missing propensity means 1/K in every round; missing positions mean position 0, and
    positions are ignored by models with a single position; the evaluation policy may be missing (or anything of the right number of rounds) for the
    unweighted method. *)
Definition pscore_is (K : nat) (l : rlog) (arg : option (list num)) : Prop :=
  arg = Some (tabF (rl_n l) (rl_p l)) \/ (arg = None /\ forall i, (i < rl_n l)%nat -> rl_p l i = 1 / INR K).
Definition position_is (L : nat) (l : rlog) (arg : option (list Z)) : Prop :=
  arg = Some (tabZ (rl_n l) (rl_pos l)) \/
  ((forall i, (i < rl_n l)%nat -> rl_pos l i = 0%nat) /\
   (arg = None \/ (L = 1%nat /\ exists q, arg = Some (tabZ (rl_n l) q)))).
Definition dist_is (m : fitting) (K L : nat) (l : rlog) (arg : option (list (list (list num)))) : Prop :=
  arg = Some (tab3F (rl_n l) K L (rl_pi l)) \/
  (m = Normal /\ (arg = None \/ exists d, arg = Some d /\ length d = rl_n l)).

(** Rounds of [idx] that were logged at position [p]. *)
Definition rounds_of (l : rlog) (idx : list nat) (p : nat) : list nat := filter (fun i => Nat.eqb (rl_pos l i) p) idx.
(** Rounds outside fold [j]. *)
Definition outside (n : nat) (fold : nat -> nat) (j : nat) : list nat :=
  filter (fun i => negb (Nat.eqb (fold i) j)) (seq 0 n).
(** Rounds of fold [j]. *)
Definition inside (n : nat) (fold : nat -> nat) (j : nat) : list nat :=
  filter (fun i => Nat.eqb (fold i) j) (seq 0 n).
Definition all_rounds (n : nat) : list nat := seq 0 n.

(** What the estimator of position [p] is trained on, given the rounds [idx]: one row of features (context, then the
    context vector of the logged action), the reward, and the weight of the fitting method. *)
Definition row_of (ac : nat -> list num) (l : rlog) (i a : nat) : list num := rl_x l i ++ ac a.
Definition train_X (ac : nat -> list num) (l : rlog) (idx : list nat) (p : nat) : list (list num) :=
  map (fun i => row_of ac l i (rl_a l i)) (rounds_of l idx p).
Definition train_y (l : rlog) (idx : list nat) (p : nat) : list num := map (rl_r l) (rounds_of l idx p).
Definition weight_of (m : fitting) (pi p : R) : R :=
  match m with Normal => 1 | Iw => pi / p | Mrdr => pi * (1 - p) / (p * p) end.
Definition train_w (m : fitting) (l : rlog) (idx : list nat) (p : nat) : option (list num) :=
  match m with
  | Normal => None
  | _ => Some (map (fun i => Fin (weight_of m (rl_pi l i (rl_a l i) p) (rl_p l i))) (rounds_of l idx p))
  end.

(** Two logs with the same contexts that agree in every round but [i]. *)
Definition differ_only_at (l l' : rlog) (i : nat) : Prop :=
  rl_n l' = rl_n l /\ (forall j, (j < rl_n l)%nat -> rl_x l' j = rl_x l j) /\
  forall j, (j < rl_n l)%nat -> j <> i ->
    rl_a l' j = rl_a l j /\ rl_r l' j = rl_r l j /\ rl_p l' j = rl_p l j /\ rl_pos l' j = rl_pos l j /\
    forall a p, rl_pi l' j a p = rl_pi l j a p.

(** Two logs with the same rounds at position [p]. *)
Definition agree_at (l l' : rlog) (p : nat) : Prop :=
  rl_n l' = rl_n l /\ (forall j, (j < rl_n l)%nat -> rl_pos l' j = p <-> rl_pos l j = p) /\
  forall j, (j < rl_n l)%nat -> rl_pos l j = p ->
    rl_x l' j = rl_x l j /\ rl_a l' j = rl_a l j /\ rl_r l' j = rl_r l j /\ rl_p l' j = rl_p l j /\
    forall a, rl_pi l' j a p = rl_pi l j a p.

(** [fold] distributes [n] rounds over [k] non-empty folds. *)
Definition is_partition (n k : nat) (fold : nat -> nat) : Prop :=
  (forall i, (i < n)%nat -> (fold i < k)%nat) /\ (forall j, (j < k)%nat -> exists i, (i < n)%nat /\ fold i = j).

(** A regression estimator whose [fit] starts from scratch ([train]) and whose prediction for a row depends on that
    row only ([f]); predicting no rows at all may raise. *)
Definition plain_learner {M : Type} (rfit : M -> list (list num) -> list num -> option (list num) -> res M)
    (rpred : M -> list (list num) -> res (list num)) (train : list (list num) -> list num -> option (list num) -> res M)
    (f : M -> list num -> num) : Prop :=
  (forall m X y w, rfit m X y w = train X y w) /\ (forall m X, X <> [] -> rpred m X = Ok (map (f m) X)).

(** ** Classifiers *)

(** The log fits a model with [K] actions and [L] positions (only contexts, actions and positions matter). *)
Record clog_ok (K L : nat) (l : rlog) : Prop := {
  co_n : (0 < rl_n l)%nat;
  co_a : forall i, (i < rl_n l)%nat -> (rl_a l i < K)%nat;
  co_pos : forall i, (i < rl_n l)%nat -> (rl_pos l i < L)%nat
}.

(** [u] lists the values occurring in [y] in increasing order. *)
Definition sorted_values (u y : list Z) : Prop :=
  (forall i j, (i < j < length u)%nat -> (nth i u 0 < nth j u 0)%Z) /\ (forall z, In z u <-> In z y).

(** A scikit-learn classifier: [fit] starts from scratch and succeeds; the model remembers the labels it has seen, in
    increasing order; [predict_proba] has one column per seen label, holding [proba m x label], row by row. *)
Definition plain_classifier {C : Type} (cfit : C -> list (list num) -> list Z -> res C)
    (cproba : C -> list (list num) -> res (list (list num))) (ctrain : list (list num) -> list Z -> C)
    (classes : C -> list Z) (proba : C -> list num -> Z -> num) : Prop :=
  (forall m X y, X <> [] -> length y = length X -> cfit m X y = Ok (ctrain X y)) /\
  (forall X y, sorted_values (classes (ctrain X y)) y) /\
  (forall m X, X <> [] -> cproba m X = Ok (map (fun x => map (proba m x) (classes m)) X)).

(** The propensity model of position [p] trained on the rounds [idx]. *)
Definition ps_model {C : Type} (ctrain : list (list num) -> list Z -> C) (l : rlog) (idx : list nat) (p : nat) : C :=
  ctrain (map (rl_x l) (rounds_of l idx p)) (map (fun i => Z.of_nat (rl_a l i)) (rounds_of l idx p)).

(** Every position has a round among [idx]. *)
Definition positions_covered (L : nat) (l : rlog) (idx : list nat) : Prop := forall p, (p < L)%nat -> rounds_of l idx p <> [].

(** Every action not larger than that of round [i] was logged at its position among the rounds [idx]. *)
Definition smaller_logged (l : rlog) (idx : list nat) (i : nat) : Prop :=
  forall b, (b <= rl_a l i)%nat -> exists i', In i' idx /\ rl_pos l i' = rl_pos l i /\ rl_a l i' = b.

(** ** Importance weights *)

(** The log fits a model with [K] actions and [L] positions and its evaluation policy is a distribution. *)
Definition iwlog_ok (K L : nat) (l : rlog) : Prop :=
  clog_ok K L l /\ forall i p, (i < rl_n l)%nat -> (p < L)%nat -> sumn K (fun a => rl_pi l i a p) = 1.

(** The evaluation policy of a round at a position, as a vector. *)
Definition policy_row (K : nat) (l : rlog) (p i : nat) : list num := tabF K (fun a => rl_pi l i a p).

(** Sampling one action per policy row: [sm] names the result. *)
Definition plain_draw (K : nat) (draw : list (list num) -> res (list Z)) (sm : list (list num) -> list nat) : Prop :=
  forall d, (forall r, In r d -> length r = K) ->
    draw d = Ok (map Z.of_nat (sm d)) /\ length (sm d) = length d /\ forall a, In a (sm d) -> (a < K)%nat.

(** The rows labelled 1: one per round, with the round's context and either the context vector of an action sampled
    from the evaluation policy or the policy's probabilities. *)
Definition policy_side (m : iw_method) (K : nat) (ac : nat -> list num) (sm : list (list num) -> list nat) (l : rlog)
    (idx : list nat) (p : nat) : list (list num) :=
  match m with
  | Sample => map (fun ia => rl_x l (fst ia) ++ ac (snd ia))
                  (combine (rounds_of l idx p) (sm (map (policy_row K l p) (rounds_of l idx p))))
  | Raw => map (fun i => rl_x l i ++ policy_row K l p i) (rounds_of l idx p)
  end.

(** The classifier of position [p] trained on the rounds [idx]: the logged rows are labelled 0. *)
Definition iw_model {C : Type} (ctrain : list (list num) -> list Z -> C) (m : iw_method) (K : nat) (ac : nat -> list num)
    (sm : list (list num) -> list nat) (l : rlog) (idx : list nat) (p : nat) : C :=
  ctrain (map (fun i => row_of ac l i (rl_a l i)) (rounds_of l idx p) ++ policy_side m K ac sm l idx p)
         (repeat 0%Z (length (rounds_of l idx p)) ++ repeat 1%Z (length (rounds_of l idx p))).

(** The odds of a probability. *)
Definition odds (c : num) : num := ndiv c (nsub (Fin 1) c).

(** Squared error of a probability model on labelled rows. *)
Definition brier (f : list num -> R) (X : list (list num)) (y : list Z) : R :=
  fold_right (fun xy acc => (IZR (snd xy) - f (fst xy)) * (IZR (snd xy) - f (fst xy)) + acc) 0 (combine X y).

(** How often a row occurs in a list of rows. *)
Definition num_dec (x y : num) : {x = y} + {x <> y}.
Proof. decide equality. apply Req_EM_T. Defined.
Definition occurrences (x : list num) (X : list (list num)) : R := INR (count_occ (list_eq_dec num_dec) X x).

(** ** Weighted squared errors and doubly robust *)

(** One round at a fixed context: the logging policy [pb] draws an action; the reward is [val a o] with probability
    [pr a o].  [expect_round] is the expectation over both. *)
Definition expect_round (K m : nat) (pb : nat -> R) (pr : nat -> nat -> R) (g : nat -> nat -> R) : R :=
  sumn K (fun a => pb a * sumn m (fun o => pr a o * g a o)).
Definition round_ok (K m : nat) (pb : nat -> R) (pr : nat -> nat -> R) : Prop :=
  (forall a, (a < K)%nat -> 0 < pb a) /\ sumn K pb = 1 /\ (forall a, (a < K)%nat -> sumn m (pr a) = 1).
Definition mean_reward (m : nat) (pr val : nat -> nat -> R) (a : nat) : R := sumn m (fun o => pr a o * val a o).
