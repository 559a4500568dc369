(** * S_Offline: vocabulary for the offline policy learners.  Only the names of the objectives are taken from the
    model. *)

From Coq Require Import Reals List ZArith.
From Coquelicot Require Import Coquelicot.
From Verif Require Import Num S_Base M_Offline.
Import ListNotations.
Open Scope R_scope.

(** [a] is the first action of largest value. *)
Definition first_best (K : nat) (f : nat -> R) (a : nat) : Prop :=
  (a < K)%nat /\ (forall b, (b < K)%nat -> f b <= f a) /\ (forall b, (b < a)%nat -> f b < f a).

(** The deterministic policy that shows action [act i p] to round i at position p, as a choice-probability array. *)
Definition one_hot3 (n K L : nat) (act : nat -> nat -> nat) : list (list (list num)) :=
  tab3F n K L (fun i a p => if Nat.eq_dec (act i p) a then 1 else 0).

(** Boltzmann (softmax) choice probability of action [a] for scores [s] at temperature [tau]. *)
Definition boltzmann (K : nat) (s : nat -> R) (tau : R) (a : nat) : R :=
  exp (s a / tau) / sumn K (fun b => exp (s b / tau)).

(** ** The objectives *)

(** A batch of logged data with a reward model. *)
Record batch := mkBatch {
  bt_n : nat;
  bt_K : nat;
  bt_a : nat -> nat;              (* logged action *)
  bt_r : nat -> R;                (* reward *)
  bt_p : nat -> R;                (* propensity *)
  bt_q : nat -> nat -> R          (* reward model *)
}.
Record batch_ok (b : batch) : Prop := {
  bo_n : (0 < bt_n b)%nat;
  bo_a : forall i, (i < bt_n b)%nat -> (bt_a b i < bt_K b)%nat;
  bo_p : forall i, (i < bt_n b)%nat -> 0 < bt_p b i
}.
Definition b_actions b := tabZ (bt_n b) (bt_a b).
Definition b_rewards b := tabF (bt_n b) (bt_r b).
Definition b_pscores b := tabF (bt_n b) (bt_p b).
Definition b_model b := tab2F (bt_n b) (bt_K b) (bt_q b).

(** Importance weight of round i for the policy [pi]. *)
Definition b_weight (b : batch) (pi : nat -> nat -> R) (i : nat) : R := pi i (bt_a b i) / bt_p b i.
(** Expected modelled reward of round i under [pi]. *)
Definition b_modelled (b : batch) (pi : nat -> nat -> R) (i : nat) : R :=
  sumn (bt_K b) (fun a => bt_q b i a * pi i a).

(** The documented default of the hyper-parameter. *)
Definition lambda_value (o : objective) (l : option R) : R :=
  match l, o with
  | Some x, _ => x
  | None, IpwSubgauss => 1 / 1000
  | None, IpwOs => 10000
  | None, _ => 0
  end.

(** Round-wise estimate of the policy value for each objective: direct method, IPW, doubly robust,
    self-normalised IPW with the Lagrange multiplier [lam], IPW with optimistic shrinkage, IPW with the
    sub-Gaussian weight. *)
Definition round_value (o : objective) (lam : R) (b : batch) (pi : nat -> nat -> R) (i : nat) : R :=
  let w := b_weight b pi i in
  match o with
  | Dm => b_modelled b pi i
  | Ipw => w * bt_r b i
  | Dr => b_modelled b pi i + w * (bt_r b i - bt_q b i (bt_a b i))
  | Snipw => w * (bt_r b i - lam)
  | IpwOs => lam * w / (w * w + lam) * bt_r b i
  | IpwSubgauss => w / (1 - lam + lam * w) * bt_r b i
  end.
Definition objective_value o lam b pi : R := avg (bt_n b) (round_value o lam b pi).

(** Unbiased sample variance. *)
Definition variance1 (n : nat) (f : nat -> R) : R :=
  sumn n (fun i => (f i - avg n f) * (f i - avg n f)) / (INR n - 1).

(** ** Training *)

(** Parameters and losses of plain training, without stopping, on a list of batches. *)
Definition trained {P B : Type} (step : P -> B -> P * num) (p : P) (l : list B) : P :=
  fold_left (fun p b => fst (step p b)) l p.
Fixpoint losses {P B : Type} (step : P -> B -> P * num) (p : P) (l : list B) : list num :=
  match l with
  | [] => []
  | b :: r => snd (step p b) :: losses step (fst (step p b)) r
  end.

(** Loss number [j+1] did not exceed loss number [j] by [tol] or more. *)
Definition no_rise (tol : num) (ls : list num) (j : nat) : Prop :=
  nlt (nsub (nth (S j) ls NaN) (nth j ls NaN)) tol = true.
(** [n] consecutive such steps end at loss number [m]. *)
Definition streak (tol : num) (n : nat) (ls : list num) (m : nat) : Prop :=
  (n <= m < length ls)%nat /\ forall j, (m - n <= j < m)%nat -> no_rise tol ls j.

Definition is_prefix {A : Type} (x y : list A) : Prop := exists z, y = x ++ z.

(** The first [left] batches overall, and one batch of every epoch that begins after these. *)
Fixpoint then_one_each {B : Type} (left : nat) (epochs : list (list B)) : list B :=
  match epochs with
  | [] => []
  | e :: r =>
      match left with
      | O => firstn 1 e ++ then_one_each 0 r
      | _ => firstn left e ++ then_one_each (left - length e) r
      end
  end.

(** ** Weighted classification *)

(** Total weight of the training examples (context, weight, label) that the classifier [h] labels correctly. *)
Definition correct_weight (h : list num -> Z) (d : list (list num) * list num * list Z) : num :=
  let '(X, w, y) := d in
  fold_right nadd (Fin 0)
    (map (fun t => if Z.eqb (h (fst (fst t))) (snd t) then snd (fst t) else Fin 0) (combine (combine X w) y)).

(** The rounds shown at position [p]. *)
Definition rounds_at (n : nat) (pos : nat -> nat) (p : nat) : list nat :=
  filter (fun i => Nat.eqb (pos i) p) (seq 0 n).

(** ** Gumbel noise *)

(** Density and distribution function of the standard Gumbel distribution ([numpy.random.gumbel]). *)
Definition gumbel_pdf (x : R) : R := exp (- x) * exp (- exp (- x)).
Definition gumbel_cdf (x : R) : R := exp (- exp (- x)).

(** Product of [f b] over [b < K], [b <> a]. *)
Fixpoint prod_others (K a : nat) (f : nat -> R) : R :=
  match K with
  | O => 1
  | S m => prod_others m a f * (if Nat.eq_dec m a then 1 else f m)
  end.

(** With independent Gumbel noise added to the scores [s], the probability that action [a] has the largest
    noisy score: integrate over the noise [g] of [a] the probability that every other action stays below. *)
Definition first_choice_probability (K : nat) (s : nat -> R) (a : nat) (v : R) : Prop :=
  is_RInt_gen (fun g => gumbel_pdf g * prod_others K a (fun b => gumbel_cdf (s a + g - s b)))
              (Rbar_locally m_infty) (Rbar_locally p_infty) v.
