(** * S_Slate: logged slate feedback and what the slate estimators are supposed to compute. *)

From Coq Require Import Reals List ZArith.
From Verif Require Import Num S_Base S_Prob.
Import ListNotations.
Open Scope R_scope.

(** [n] rows; row i belongs to slate [id i] and position [pos i]. *)
Record slog := mkSlog {
  sl_n : nat; sl_id : nat -> nat; sl_pos : nat -> nat;
  sl_r : nat -> R; sl_p : nat -> R; sl_pe : nat -> R }.
Definition s_ids (l : slog) := tabZ (sl_n l) (sl_id l).
Definition s_pos (l : slog) := tabZ (sl_n l) (sl_pos l).
Definition s_rew (l : slog) := tabF (sl_n l) (sl_r l).
Definition s_p (l : slog) := tabF (sl_n l) (sl_p l).
Definition s_pe (l : slog) := tabF (sl_n l) (sl_pe l).

(** Well-formed rows: at least one, propensities in (0,1], evaluation probabilities in [0,1],
    no (slate, position) pair twice. *)
Record rows_ok (l : slog) : Prop := {
  so_n : (0 < sl_n l)%nat;
  so_p : forall i, (i < sl_n l)%nat -> 0 < sl_p l i <= 1;
  so_pe : forall i, (i < sl_n l)%nat -> 0 <= sl_pe l i <= 1;
  so_uniq : forall i j, (i < sl_n l)%nat -> (j < sl_n l)%nat ->
     sl_id l i = sl_id l j -> sl_pos l i = sl_pos l j -> i = j }.
(** Slate propensities: one value per slate. *)
Definition constant_in_slate (l : slog) : Prop :=
  forall i j, (i < sl_n l)%nat -> (j < sl_n l)%nat -> sl_id l i = sl_id l j ->
    sl_p l i = sl_p l j /\ sl_pe l i = sl_pe l j.
(** Cascade propensities: non-increasing in the position. *)
Definition cascading (l : slog) : Prop :=
  forall i j, (i < sl_n l)%nat -> (j < sl_n l)%nat -> sl_id l i = sl_id l j ->
    (sl_pos l i < sl_pos l j)%nat -> sl_p l j <= sl_p l i /\ sl_pe l j <= sl_pe l i.

Definition s_weight (l : slog) (i : nat) : R := sl_pe l i / sl_p l i.

(** [ids] enumerates the slates of the log. *)
Definition slates (l : slog) (ids : list nat) : Prop :=
  NoDup ids /\ forall s, In s ids <-> exists i, (i < sl_n l)%nat /\ sl_id l i = s.

(** Sum over a list, and the part of a row quantity that belongs to slate [s]. *)
Definition sum_over {A : Type} (l : list A) (f : A -> R) : R := fold_right (fun x acc => f x + acc) 0 l.
Definition slate_total (l : slog) (f : nat -> R) (s : nat) : R :=
  sumn (sl_n l) (fun i => if Nat.eq_dec (sl_id l i) s then f i else 0).

(** Mean, over the slates, of the slate's total. *)
Definition slate_mean (l : slog) (ids : list nat) (f : nat -> R) : R :=
  sum_over ids (slate_total l f) / INR (length ids).

(** Mean weight of the rows at position [k]. *)
Definition pos_count (l : slog) (k : nat) : R :=
  sumn (sl_n l) (fun i => if Nat.eq_dec (sl_pos l i) k then 1 else 0).
Definition pos_total (l : slog) (k : nat) (f : nat -> R) : R :=
  sumn (sl_n l) (fun i => if Nat.eq_dec (sl_pos l i) k then f i else 0).
Definition pos_mean_weight (l : slog) (k : nat) : R := pos_total l k (s_weight l) / pos_count l k.

(** ** The data-generating process of slates *)

(** Contexts X; slates are lists of [L] actions. *)
Record senv (X : Type) := mkSenv {
  se_n : nat; se_L : nat;
  se_ctx : nat -> dist X;
  se_mu : X -> dist (list nat);           (* behaviour policy *)
  se_nu : X -> dist (list nat);           (* evaluation policy *)
  se_rd : X -> list nat -> dist (list R)  (* rewards of the L positions given the slate *) }.
Arguments mkSenv {X}. Arguments se_n {X}. Arguments se_L {X}. Arguments se_ctx {X}.
Arguments se_mu {X}. Arguments se_nu {X}. Arguments se_rd {X}.

Record senv_ok {X} (e : senv X) : Prop := {
  sv_n : (0 < se_n e)%nat; sv_L : (0 < se_L e)%nat;
  sv_ctx : forall i, (i < se_n e)%nat -> is_dist (se_ctx e i);
  sv_mu : forall x, is_dist (se_mu e x);
  sv_nu : forall x, is_dist (se_nu e x);
  sv_rd : forall x s, is_dist (se_rd e x s) }.

(** Two slates agree in the respect that matters for position [k]: entirely, at position k, or
    at all positions up to k. *)
Inductive skind := Standard | Independent | Cascade.
Definition agree (kd : skind) (k : nat) (s t : list nat) : bool :=
  match kd with
  | Standard => if list_eq_dec Nat.eq_dec s t then true else false
  | Independent => if Nat.eq_dec (nth k s 0%nat) (nth k t 0%nat) then true else false
  | Cascade => if list_eq_dec Nat.eq_dec (firstn (S k) s) (firstn (S k) t) then true else false
  end.

(** Probability that a slate drawn from [d] agrees with [s]: the propensity of that kind. *)
Definition propensity (kd : skind) (k : nat) (d : dist (list nat)) (s : list nat) : R :=
  expect d (fun t => if agree kd k s t then 1 else 0).

(** Expected reward at position k, and the value of the evaluation policy. *)
Definition slate_q {X} (e : senv X) (x : X) (s : list nat) (k : nat) : R :=
  expect (se_rd e x s) (fun r => nth k r 0).
Definition slate_policy_value {X} (e : senv X) : R :=
  avg (se_n e) (fun i => expect (se_ctx e i) (fun x => expect (se_nu e x) (fun s =>
    sumn (se_L e) (fun k => slate_q e x s k)))).

(** Every slate the evaluation policy may show agrees with one the behaviour policy may show. *)
Definition slate_support {X} (e : senv X) (kd : skind) : Prop :=
  forall x s p k, In (s, p) (se_nu e x) -> p <> 0 -> (k < se_L e)%nat ->
    0 < propensity kd k (se_mu e x) s.
(** The expected reward at position k depends on the slate only through that part of it. *)
Definition reward_structure {X} (e : senv X) (kd : skind) : Prop :=
  forall x s t k, (k < se_L e)%nat -> agree kd k s t = true -> slate_q e x s k = slate_q e x t k.

(** One logged slate, the whole log, and the rows passed to the estimator: row i is position
    [i mod L] of slate [i / L]. *)
Definition slate_round {X} (e : senv X) (i : nat) : dist (X * list nat * list R) :=
  dbind (se_ctx e i) (fun x => dbind (se_mu e x) (fun s => dmap (fun r => (x, s, r)) (se_rd e x s))).
Definition slate_logs {X} (e : senv X) := dprod (se_n e) (slate_round e).
Definition slate_log {X} (e : senv X) (kd : skind) (o : list (X * list nat * list R)) : slog :=
  let L := se_L e in {|
  sl_n := se_n e * L;
  sl_id := fun i => Nat.div i L;
  sl_pos := fun i => Nat.modulo i L;
  sl_r := fun i => match nth_error o (Nat.div i L) with Some (_, _, r) => nth (Nat.modulo i L) r 0 | None => 0 end;
  sl_p := fun i => match nth_error o (Nat.div i L) with
            Some (x, s, _) => propensity kd (Nat.modulo i L) (se_mu e x) s | None => 0 end;
  sl_pe := fun i => match nth_error o (Nat.div i L) with
            Some (x, s, _) => propensity kd (Nat.modulo i L) (se_nu e x) s | None => 0 end |}.

(** ** What the input checks promise, for arbitrary arrays (including NaN entries) *)

Definition prob_pos_or_nan (x : num) : Prop := x = NaN \/ exists v, x = Fin v /\ 0 < v <= 1.
Definition prob_or_nan (x : num) : Prop := x = NaN \/ exists v, x = Fin v /\ 0 <= v <= 1.
Record inputs_valid (ids : list Z) (rew : list num) (pos : list Z) (p pe : list num) : Prop := {
  iv_n : (0 < length ids)%nat;
  iv_pos_len : length pos = length ids;
  iv_rew_len : length rew = length ids;
  iv_p_len : length p = length ids;
  iv_pe_len : length pe = length ids;
  iv_ids : Forall (fun s => (0 <= s)%Z) ids;
  iv_pos : Forall (fun k => (0 <= k)%Z) pos;
  iv_p : Forall prob_pos_or_nan p;
  iv_pe : Forall prob_or_nan pe }.
(** No (slate, position) pair occurs twice. *)
Definition no_repeat (ids pos : list Z) : Prop :=
  forall i j, (i < length ids)%nat -> (j < length ids)%nat ->
    nth i ids 0%Z = nth j ids 0%Z -> nth i pos 0%Z = nth j pos 0%Z -> i = j.
(** A column has one value per slate. *)
Definition one_value_per_slate (ids : list Z) (col : list num) : Prop :=
  forall i j, (i < length ids)%nat -> (j < length ids)%nat ->
    nth i ids 0%Z = nth j ids 0%Z -> nth i col NaN = nth j col NaN.
(** Within a slate the column never increases with the position (NaN compares as not smaller). *)
Definition never_increases (ids pos : list Z) (col : list num) : Prop :=
  forall i j, (i < length ids)%nat -> (j < length ids)%nat ->
    nth i ids 0%Z = nth j ids 0%Z -> (nth i pos 0%Z < nth j pos 0%Z)%Z ->
    nlt (nth i col NaN) (nth j col NaN) = false.

(** [m] either succeeds exactly when [P] holds or raises ValueError. *)
Definition decides (m : res unit) (P : Prop) : Prop :=
  (m = Ok tt /\ P) \/ (m = Err ValueError /\ ~ P).

(** What cascade-DR additionally checks: actions in [0,K), as many actions, rows of q_hat and rows of
    the action distribution as rows of the log, every row of the distribution sums to one (np.allclose). *)
Record cascade_inputs (K : nat) (ids act : list Z) (q_hat edist : list num) : Prop := {
  ci_act : Forall (fun a => (0 <= a < Z.of_nat K)%Z) act;
  ci_act_len : length act = length ids;
  ci_q_len : Nat.div (length q_hat) K = length ids;
  ci_d_len : length edist = (length ids * K)%nat;
  ci_d_sum : forall j, (j < length ids)%nat ->
    exists v, fold_right nadd (Fin 0) (firstn K (skipn (j * K) edist)) = Fin v /\
      Rabs (v - 1) <= 1 / 100000000 + 1 / 100000 }.

(** ** Row order, block layout, cascade doubly robust *)

(** The same rows in another order. *)
Definition s_reorder (s : nat -> nat) (l : slog) : slog :=
  {| sl_n := sl_n l; sl_id := fun i => sl_id l (s i); sl_pos := fun i => sl_pos l (s i);
     sl_r := fun i => sl_r l (s i); sl_p := fun i => sl_p l (s i); sl_pe := fun i => sl_pe l (s i) |}.

(** [n] slates of [L] rows each, stored one slate after the other. *)
Definition in_blocks (l : slog) (n L : nat) : Prop :=
  (0 < n)%nat /\ (0 < L)%nat /\ sl_n l = (n * L)%nat /\
  forall i j, (i < n * L)%nat -> (j < n * L)%nat -> (sl_id l i = sl_id l j <-> Nat.div i L = Nat.div j L).

(** Flat array of [m] rows of [K] entries. *)
Definition flat2 (m K : nat) (f : nat -> nat -> R) : list num :=
  tabF (m * K) (fun j => f (Nat.div j K) (Nat.modulo j K)).

(** Cascade doubly robust estimate: for slate i and position k (row i*L+k)
    w(i,k) * (r - q(a)) + w(i,k-1) * sum_a pi(a) q(a), where w(i,-1) = 1. *)
Definition prev_weight (l : slog) (L i k : nat) : R :=
  match k with O => 1 | S j => s_weight l (i * L + j) end.
Definition cascade_dr_spec (l : slog) (n L K : nat) (act : nat -> nat) (q pi : nat -> nat -> R) : R :=
  avg n (fun i => sumn L (fun k =>
    let j := (i * L + k)%nat in
    s_weight l j * (sl_r l j - q j (act j)) + prev_weight l L i k * sumn K (fun a => pi j a * q j a))).

(** [cd x u a] is the conditional probability, under the slate distribution [d], of action [a] at
    the position after the prefix [u]. *)
Definition conditional_of (d : dist (list nat)) (L K : nat) (cd : list nat -> nat -> R) : Prop :=
  forall u k a, length u = k -> (k < L)%nat -> (a < K)%nat ->
    expect d (fun s => if list_eq_dec Nat.eq_dec (firstn k s) u then 1 else 0) * cd u a
    = expect d (fun s => if list_eq_dec Nat.eq_dec (firstn (S k) s) (u ++ [a]) then 1 else 0).
Definition slates_of (d : dist (list nat)) (L K : nat) : Prop :=
  forall s p, In (s, p) d -> p <> 0 -> length s = L /\ Forall (fun a => (a < K)%nat) s.
(** Cascade-DR inputs for the outcome [o]: logged actions, the reward model's predictions for every
    action given context and logged prefix, and the evaluation policy's conditional probabilities. *)
Definition log_action {X} (e : senv X) (o : list (X * list nat * list R)) (j : nat) : nat :=
  match nth_error o (Nat.div j (se_L e)) with Some (_, s, _) => nth (Nat.modulo j (se_L e)) s 0%nat | None => 0%nat end.
Definition log_table {X} (e : senv X) (f : X -> list nat -> nat -> R) (o : list (X * list nat * list R)) (j a : nat) : R :=
  match nth_error o (Nat.div j (se_L e)) with
  | Some (x, s, _) => f x (firstn (Nat.modulo j (se_L e)) s) a | None => 0 end.
