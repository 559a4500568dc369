(** * M_Slate: model of obp/ope/estimators_slate.py and of the slate checks in obp/utils.py. *)

From Coq Require Import Reals List ZArith Bool.
From Verif Require Import Num NpList M_Utils.
Import ListNotations.
Open Scope R_scope.

(** [np.unique(x)]: sorted distinct values. *)
(** Models: ope/estimators_slate.py 122, 210, 360, 506, 754, 842, 893. *)
Fixpoint zinsert_u (x : Z) (l : list Z) : list Z :=
  match l with
  | [] => [x]
  | y :: r => if Z.ltb x y then x :: y :: r else if Z.eqb x y then y :: r else y :: zinsert_u x r
  end.
(** Models: ope/estimators_slate.py 122, 210, 360, 506, 754, 842, 893. *)
Definition np_unique (l : list Z) : list Z := fold_right zinsert_u [] l.

(** [a.reshape((-1, k))]: ValueError unless k divides the size. *)
(** Models: ope/estimators_slate.py 662, 676. *)
Definition reshape {A : Type} (k : nat) (l : list A) : res (list (list A)) :=
  if (Nat.eqb k 0 || negb (Nat.eqb (Nat.modulo (length l) k) 0))%bool then Err ValueError
  else Ok (map (fun i => firstn k (skipn (i * k) l)) (seq 0 (Nat.div (length l) k))).

(** utils.py 622-691: [_check_slate_ope_inputs].  Dtype and dimension checks are the types here;
    [.min()] of an empty array is ValueError. *)
Definition check_slate_ope_inputs (slate_id : list Z) (reward : arr1) (position : list Z)
    (pscore epscore : arr1) : res unit :=
  mp <- zminl position ;;
  raise_if (Z.ltb mp 0) ValueError ;;;
  raise_if (existsb (fun p => nle p (Fin 0) || nlt (Fin 1) p)%bool pscore) ValueError ;;;
  raise_if (existsb (fun p => nlt p (Fin 0) || nlt (Fin 1) p)%bool epscore) ValueError ;;;
  ms <- zminl slate_id ;;
  raise_if (Z.ltb ms 0) ValueError ;;;
  raise_if (negb (Nat.eqb (length slate_id) (length position)
                  && Nat.eqb (length position) (length reward)
                  && Nat.eqb (length reward) (length pscore)
                  && Nat.eqb (length pscore) (length epscore))%bool) ValueError.

(** [df.duplicated(["slate_id", "position"]).sum() > 0]. *)
(** Models: utils.py 737, 793, 848. *)
Fixpoint duplicated (l : list (Z * Z)) : bool :=
  match l with
  | [] => false
  | x :: r => (existsb (fun y => Z.eqb (fst x) (fst y) && Z.eqb (snd x) (snd y))%bool r || duplicated r)%bool
  end.

(** [x.unique().shape[0]]: number of distinct values (NaN counts as one value). *)
(** Models: utils.py 741, 748. *)
Definition nsame (x y : num) : bool :=
  match x, y with NaN, NaN => true | _, _ => neqb x y end.
(** Models: utils.py 741, 748. *)
Fixpoint ndistinct (l : list num) : list num :=
  match l with
  | [] => []
  | x :: r => if existsb (nsame x) (ndistinct r) then ndistinct r else x :: ndistinct r
  end.

(** Values of a column in the rows of one slate ([groupby("slate_id")]). *)
(** Models: utils.py 740-748. *)
Definition in_slate (s : Z) (slate_id : list Z) (col : list num) : list num :=
  map snd (filter (fun p => Z.eqb (fst p) s) (combine slate_id col)).

(** Models: utils.py 740-750. *)
Definition not_constant (slate_id : list Z) (col : list num) : bool :=
  existsb (fun s => negb (Nat.eqb (length (ndistinct (in_slate s slate_id col))) 1)) (np_unique slate_id).

(** utils.py 694-750 *)
Definition check_sips_inputs (slate_id : list Z) (reward : arr1) (position : list Z)
    (pscore epscore : arr1) : res unit :=
  check_slate_ope_inputs slate_id reward position pscore epscore ;;;
  raise_if (duplicated (combine slate_id position)) ValueError ;;;
  raise_if (not_constant slate_id pscore) ValueError ;;;
  raise_if (not_constant slate_id epscore) ValueError.

(** utils.py 753-794 *)
Definition check_iips_inputs (slate_id : list Z) (reward : arr1) (position : list Z)
    (pscore epscore : arr1) : res unit :=
  check_slate_ope_inputs slate_id reward position pscore epscore ;;;
  raise_if (duplicated (combine slate_id position)) ValueError.

(** [df.sort_values(["slate_id", "position"])] on rows (slate, position, column): among rows with
    equal keys the order is irrelevant because they are rejected as duplicates right after. *)
(** Models: utils.py 842-846. *)
Definition row_le (x y : Z * Z * (num * num)) : bool :=
  let '(s, p, _) := x in let '(s', p', _) := y in
  (Z.ltb s s' || (Z.eqb s s' && Z.leb p p'))%bool.
(** Models: utils.py 842-846. *)
Fixpoint row_insert (x : Z * Z * (num * num)) (l : list (Z * Z * (num * num))) :=
  match l with
  | [] => [x]
  | y :: r => if row_le x y then x :: y :: r else y :: row_insert x r
  end.
(** Models: utils.py 842-846. *)
Definition row_sort := fold_right row_insert [].

(** [.groupby("slate_id")[col].expanding().min()]: running minimum within the slate; NaN entries
    are skipped by pandas. *)
(** Models: utils.py 851-856. *)
Definition min_skipna (l : list num) : num :=
  fold_left (fun m x => match m, x with NaN, _ => x | _, NaN => m | _, _ => nmin m x end) l NaN.
(** Models: utils.py 851-875. *)
Fixpoint increases (seen rows : list (Z * num)) : bool :=
  match rows with
  | [] => false
  | (s, v) :: r =>
      (nlt (min_skipna (map snd (filter (fun x => Z.eqb (fst x) s) (seen ++ [(s, v)])))) v
       || increases (seen ++ [(s, v)]) r)%bool
  end.

(** utils.py 797-876 *)
Definition check_rips_inputs (slate_id : list Z) (reward : arr1) (position : list Z)
    (pscore epscore : arr1) : res unit :=
  check_slate_ope_inputs slate_id reward position pscore epscore ;;;
  let rows := row_sort (combine (combine slate_id position) (combine pscore epscore)) in
  raise_if (duplicated (map fst rows)) ValueError ;;;
  raise_if (increases [] (map (fun x => (fst (fst x), fst (snd x))) rows)) ValueError ;;;
  raise_if (increases [] (map (fun x => (fst (fst x), snd (snd x))) rows)) ValueError.

(** utils.py 879-974 *)
Definition check_cascade_dr_inputs (n_unique_action : nat) (slate_id action : list Z) (reward : arr1)
    (position : list Z) (pscore epscore q_hat edist : arr1) : res unit :=
  check_rips_inputs slate_id reward position pscore epscore ;;;
  mn <- zminl action ;;
  mx <- zmaxl action ;;
  raise_if (negb (Z.leb 0 mn && Z.ltb mx (Z.of_nat n_unique_action))%bool) ValueError ;;;
  raise_if (negb (Nat.eqb (length slate_id) (length action)
                  && Nat.eqb (length action) (Nat.div (length q_hat) n_unique_action)
                  && Nat.eqb (Nat.div (length q_hat) n_unique_action)
                             (Nat.div (length edist) n_unique_action))%bool) ValueError ;;;
  rows <- reshape n_unique_action edist ;;
  raise_if (negb (forallb (fun row => isclose1 (nsum row)) rows)) ValueError.

(** estimators_slate.py 53-87: [BaseSlateInverseProbabilityWeighting._estimate_round_rewards]. *)
Definition slate_ipw_rounds (reward : arr1) (position : list Z) (p pe : arr1) : res arr1 :=
  iw <- bcast2 ndiv pe p ;;
  bcast2 nmul reward iw.

(** estimators_slate.py 921-959: per-position self-normalisation.  Rows whose position is not in [0, len_list) keep
    the initial zero.  The arrays are taken to be float arrays. *)
Definition at_position (pos : Z) (position : list Z) (col : list num) : list num :=
  map snd (filter (fun x => Z.eqb (fst x) pos) (combine position col)).
Definition sn_position_rounds (len_list : nat) (reward : arr1) (position : list Z) (p pe : arr1) : res arr1 :=
  iw <- bcast2 ndiv pe p ;;
  Ok (map (fun x => let '(pos, (r, w)) := x in
             if (Z.leb 0 pos && Z.ltb pos (Z.of_nat len_list))%bool
             then ndiv (nmul r w) (nmean (at_position pos position iw))
             else Fin 0)
        (combine position (combine reward iw))).

(** estimators_slate.py 999-1034: [SelfNormalizedSlateStandardIPS._estimate_round_rewards]. *)
Definition snsips_rounds (reward : arr1) (position : list Z) (p pe : arr1) : res arr1 :=
  iw <- bcast2 ndiv pe p ;;
  rw <- bcast2 nmul reward iw ;;
  Ok (map (fun x => ndiv x (nmean iw)) rw).

(** estimators_slate.py 203-211, 353-361, 499-507, 754-766: the sum of all rows over the number of distinct slates. *)
Definition per_slate (rr : arr1) (slate_id : list Z) : num :=
  ndiv (nsum rr) (nnat (length (np_unique slate_id))).

Definition slate_value (check : list Z -> arr1 -> list Z -> arr1 -> arr1 -> res unit)
    (rounds : arr1 -> list Z -> arr1 -> arr1 -> res arr1)
    (slate_id : list Z) (reward : arr1) (position : list Z) (p pe : arr1) : res num :=
  check slate_id reward position p pe ;;;
  rr <- rounds reward position p pe ;;
  Ok (per_slate rr slate_id).

(** [estimate_policy_value] of the six IPS-type estimators. *)
(** Models: ope/estimators_slate.py 160-211. *)
Definition sips_value := slate_value check_sips_inputs slate_ipw_rounds.
(** Models: ope/estimators_slate.py 310-361. *)
Definition iips_value := slate_value check_iips_inputs slate_ipw_rounds.
(** Models: ope/estimators_slate.py 457-507. *)
Definition rips_value := slate_value check_rips_inputs slate_ipw_rounds.
(** Models: ope/estimators_slate.py 963-1035. *)
Definition snsips_value := slate_value check_sips_inputs snsips_rounds.
(** Models: ope/estimators_slate.py 1038-1076. *)
Definition sniips_value (len_list : nat) := slate_value check_iips_inputs (sn_position_rounds len_list).
(** Models: ope/estimators_slate.py 1079-1120. *)
Definition snrips_value (len_list : nat) := slate_value check_rips_inputs (sn_position_rounds len_list).

(** estimators_slate.py 89-133 and 860-904: per-slate sums, in the order of [np.unique]. *)
Definition slate_sums (slate_id : list Z) (rr : arr1) : arr1 :=
  map (fun s => nsum (in_slate s slate_id rr)) (np_unique slate_id).
(** Models: ope/estimators_slate.py 261-280, 411-430, 555-574 ([estimate_interval] of the IPS-type estimators). *)
Definition slate_interval (check : list Z -> arr1 -> list Z -> arr1 -> arr1 -> res unit)
    (rounds : arr1 -> list Z -> arr1 -> arr1 -> res arr1)
    (slate_id : list Z) (reward : arr1) (position : list Z) (p pe : arr1)
    (alpha : R) (n_boot : Z) (choice : nat -> nat -> nat) : res interval :=
  check slate_id reward position p pe ;;;
  rr <- rounds reward position p pe ;;
  estimate_confidence_interval_by_bootstrap (slate_sums slate_id rr) alpha n_boot choice.

(** [x[idx] = 1] for a list of in-range indices; IndexError otherwise. *)
(** Models: ope/estimators_slate.py 684. *)
Fixpoint set_at {A : Type} (l : list A) (i : nat) (v : A) : list A :=
  match l, i with
  | [], _ => []
  | _ :: r, O => v :: r
  | x :: r, S j => x :: set_at r j v
  end.
(** Models: ope/estimators_slate.py 684. *)
Definition set_many (l : list num) (idx : list nat) (v : num) : res (list num) :=
  if forallb (fun i => Nat.ltb i (length l)) idx then Ok (fold_left (fun a i => set_at a i v) idx l)
  else Err IndexError.

(** [np.roll(x, 1)] *)
(** Models: ope/estimators_slate.py 683. *)
Definition roll1 {A : Type} (l : list A) : list A :=
  match rev l with [] => [] | x :: r => x :: rev r end.

(** estimators_slate.py 615-690: [SlateCascadeDoublyRobust._estimate_round_rewards]. *)
Definition cascade_dr_rounds (len_list n_unique_action n_rounds : nat) (action : list Z) (reward : arr1)
    (p pe q_hat edist : arr1) : res arr1 :=
  q2 <- reshape n_unique_action q_hat ;;
  q3 <- reshape len_list q2 ;;
  qobs <- mapM (fun ik =>
            a <- np_get action (Z.of_nat (fst ik * len_list + snd ik)%nat) ;;
            block <- np_get q3 (Z.of_nat (fst ik)) ;;
            row <- np_get block (Z.of_nat (snd ik)) ;;
            np_get row a)
          (list_prod (seq 0 n_rounds) (seq 0 len_list)) ;;
  eq <- bcast2 nmul edist q_hat ;;
  eq2 <- reshape n_unique_action eq ;;
  eq3 <- reshape len_list eq2 ;;
  let expected := concat (map (map nsum) eq3) in
  iw <- bcast2 ndiv pe p ;;
  iw_prev <- set_many (roll1 iw) (map (fun i => (i * len_list)%nat) (seq 0 n_rounds)) (Fin 1) ;;
  resid <- bcast2 nsub reward qobs ;;
  t1 <- bcast2 nmul iw resid ;;
  t2 <- bcast2 nmul iw_prev expected ;;
  bcast2 nadd t1 t2.

(** estimators_slate.py 692-766 *)
Definition cascade_dr_value (len_list n_unique_action : nat) (slate_id action : list Z) (reward : arr1)
    (position : list Z) (p pe q_hat edist : arr1) : res num :=
  check_cascade_dr_inputs n_unique_action slate_id action reward position p pe q_hat edist ;;;
  rr <- cascade_dr_rounds len_list n_unique_action (length (np_unique slate_id)) action reward p pe q_hat edist ;;
  Ok (per_slate rr slate_id).

(** estimators_slate.py 768-904: [SlateCascadeDoublyRobust.estimate_interval]. *)
Definition cascade_dr_interval (len_list n_unique_action : nat) (slate_id action : list Z) (reward : arr1)
    (position : list Z) (p pe q_hat edist : arr1) (alpha : R) (n_boot : Z) (choice : nat -> nat -> nat)
    : res interval :=
  check_cascade_dr_inputs n_unique_action slate_id action reward position p pe q_hat edist ;;;
  rr <- cascade_dr_rounds len_list n_unique_action (length (np_unique slate_id)) action reward p pe q_hat edist ;;
  estimate_confidence_interval_by_bootstrap (slate_sums slate_id rr) alpha n_boot choice.
