(** * M_Meta: model of obp/ope/meta.py, meta_multi.py, meta_slate.py and meta_continuous.py.

    An estimator is an argument: its name, whether the class tests for a reward model ([isinstance(estimator, DM)] ...),
    and its two methods as functions of the keyword arguments they receive.  Dictionaries are association lists in
    insertion order; the caller's feedback dictionary lives in a store, and the evaluation objects hold a reference
    to it, as in Python.  Plotting (visualize_...) is not modelled; data frames are association lists. *)

From Coq Require Import String Reals List ZArith Bool.
From Verif Require Import Num NpList M_Utils M_Slate M_Estimators.
Import ListNotations.
Open Scope R_scope.

(** ** Python values *)

(** Arrays: integers, one to three dimensions, others by shape and contents. *)
(** Models: ope/meta.py 102-220 (array arguments). *)
Inductive nd := NI (l : list Z) | N1 (a : arr1) | N2 (a : arr2) | N3 (a : arr3) | NdOther (shape : list nat) (data : arr1).
(** Models: ope/meta.py 102-220 (argument values). *)
Inductive pyval := PNone | PArr (a : nd) | POther.

(** [a.shape] *)
(** Models: ope/meta.py 127, 137. *)
Definition shape (a : nd) : list nat :=
  match a with
  | NI l => [length l]
  | N1 l => [length l]
  | N2 m => [length m; length (nth 0 m [])]
  | N3 m => [length m; dim1 m; dim2 m]
  | NdOther s _ => s
  end.
(** the entries, in row-major order *)
(** Models: ope/meta.py 519, 636. *)
Definition flatten (a : nd) : arr1 :=
  match a with
  | NI l => map (fun z => Fin (IZR z)) l
  | N1 l => l
  | N2 m => concat m
  | N3 m => concat (concat m)
  | NdOther _ d => d
  end.
(** Models: ope/meta.py 127, 137. *)
Definition shape_same (a b : nd) : bool := if list_eq_dec Nat.eq_dec (shape a) (shape b) then true else false.
(** [a.shape[k]] *)
(** Models: ope/meta.py 163-187. *)
Definition shape_at (a : nd) (k : nat) : nat := nth k (shape a) 0%nat.

(** utils.py 150-176: [check_array]; returns the array. *)
Definition check_array (v : pyval) (dim : nat) : res nd :=
  match v with
  | PArr a => raise_if (negb (Nat.eqb (length (shape a)) dim)) ValueError ;;; Ok a
  | _ => Err ValueError
  end.

Definition dict (A : Type) := list (string * A).
Fixpoint dget {A} (d : dict A) (k : string) : option A :=
  match d with [] => None | (k', v) :: r => if String.eqb k' k then Some v else dget r k end.
(** [d[k] = v]: in place when the key exists, otherwise appended. *)
(** Models: ope/meta.py 192-220, 305-318. *)
Fixpoint dset {A} (d : dict A) (k : string) (v : A) : dict A :=
  match d with [] => [(k, v)] | (k', w) :: r => if String.eqb k' k then (k', v) :: r else (k', w) :: dset r k v end.
(** [d[k]] *)
(** Models: ope/meta.py 92-100, 192-220. *)
Definition dgetitem {A} (d : dict A) (k : string) : res A := match dget d k with Some v => Ok v | None => Err KeyError end.
(** Models: ope/meta.py 192-220. *)
Definition or_none (v : option pyval) : pyval := match v with Some x => x | None => PNone end.

(** Models: ope/meta.py 192-220. *)
Definition store := nat -> dict pyval.
(** Models: ope/meta.py 192-220, 305-318. *)
Definition supd (s : store) (l : nat) (d : dict pyval) : store := fun l' => if Nat.eqb l' l then d else s l'.

(** An argument given as one value (None included) or as a dictionary by estimator name. *)
(** Models: ope/meta.py 102-190 (value or dictionary of values). *)
Inductive arg := AVal (v : pyval) | ADict (d : dict pyval).
(** Models: ope/meta.py 120, 134, 150. *)
Definition arg_is_none (a : arg) : bool := match a with AVal PNone => true | _ => false end.

(** ** Shared by the four classes *)

Section Meta.
Context {I : Type}.
(** Models: ope/meta.py 32-100 (the estimator objects). *)
Record est := mkEst { e_name : string; e_model : bool; e_value : I -> res num; e_interval : I -> num -> Z -> option Z -> res interval }.

(** meta.py 92-94 etc. *)
Definition check_keys (keys : list string) (fb : dict pyval) : res unit :=
  raise_if (existsb (fun k => match dget fb k with None => true | _ => false end) keys) RuntimeError.

(** meta.py 95-100 etc.: the dictionary of estimators and whether one of them needs a reward model. *)
Definition est_dict (ests : list est) : dict est := fold_left (fun d e => dset d (e_name e) e) ests [].
Definition any_model (ests : list est) : bool := existsb e_model ests.

Record ope := mkOpe { o_ref : nat; o_ests : dict est; o_model : bool }.

(** meta.py 90-100, meta_multi.py 99-114, meta_slate.py 117-134: [__post_init__]. *)
Definition meta_init (keys : list string) (s : store) (ref : nat) (ests : list est) : res ope :=
  check_keys keys (s ref) ;;; Ok (mkOpe ref (est_dict ests) (any_model ests)).

(** meta.py 306-320 etc.: one entry per estimator of the dictionary, each with its own inputs. *)
Fixpoint run {B : Type} (f : est -> I -> res B) (ests : dict est) (inputs : string -> res I) (out : dict B) : res (dict B) :=
  match ests with
  | [] => Ok out
  | (nm, e) :: r => i <- inputs nm ;; v <- f e i ;; run f r inputs (dset out nm v)
  end.

(** meta.py 745-775 etc.: the tests of the metric, and one estimator's error. *)
Definition check_metric (metric : string) (truth : num) : res unit :=
  raise_if (negb (String.eqb metric "relative-ee" || String.eqb metric "se")) ValueError ;;;
  raise_if (String.eqb metric "relative-ee" && neqb truth (Fin 0))%bool ValueError.
Definition metric_of (metric : string) (truth v : num) : num :=
  if String.eqb metric "relative-ee" then nabs (ndiv (nsub v truth) truth) else nsqr (nsub v truth).

(** meta.py 519-529: the value of the behaviour policy and the relative value. *)
Definition relative (base v : num) : num := if nle base (Fin 0) then NaN else ndiv v base.
Definition with_relative (base : num) (values : dict num) : dict (num * num) :=
  map (fun kv => (fst kv, (snd kv, relative base (snd kv)))) values.
End Meta.
Arguments est : clear implicits.
Arguments ope : clear implicits.

(** [v.mean()] and [v.sum()] *)
(** Models: ope/meta.py 519. *)
Definition val_mean (v : pyval) : res num := match v with PArr a => Ok (nmean (flatten a)) | _ => Err AttributeError end.
(** Models: ope/meta_slate.py 393. *)
Definition val_sum (v : pyval) : res num := match v with PArr a => Ok (nsum (flatten a)) | _ => Err AttributeError end.

(** ** obp/ope/meta.py *)

(** Models: ope/meta.py 192-220 (estimator_inputs). *)
Record ope_in := mkIn {
  i_action : pyval; i_position : pyval; i_reward : pyval; i_context : pyval; i_pscore : pyval; i_dist : pyval;
  i_q : pyval; i_epscore : pyval; i_iw : pyval; i_embed : pyval; i_pib : pyval; i_pea : pyval }.
(** Models: ope/meta.py 102-113 (keyword arguments). *)
Record ope_args := mkArgs { g_dist : pyval; g_q : arg; g_epscore : arg; g_iw : arg; g_embed : arg; g_pib : arg; g_pea : arg }.

(** Models: ope/meta.py 92. *)
Definition ope_keys : list string := ["action"; "position"; "reward"; "context"]%string.
(** Models: ope/meta.py 90-100. *)
Definition ope_init := @meta_init ope_in ope_keys.

(** meta.py 118-140 (also meta_multi.py 127-149): the reward model's predictions have the shape of the policy.  The
    result is the local variable [value]: the last dictionary entry looked at, if any. *)
Definition check_q (dim : nat) (a : arg) (dist : nd) : res (option nd) :=
  match a with
  | AVal PNone => Ok None
  | AVal v => q <- check_array v dim ;; raise_if (negb (shape_same q dist)) ValueError ;;; Ok None
  | ADict d =>
      vs <- mapM (fun kv => q <- check_array (snd kv) dim ;; raise_if (negb (shape_same q dist)) ValueError ;;; Ok q) d ;;
      Ok (last (map Some vs) None)
  end.

(** meta.py 150-171 and 172-185: entries have [dim] dimensions and as many rows as axis [axis] of the policy. *)
Definition check_item (dim axis : nat) (dist : nd) (v : pyval) : res nd :=
  a <- check_array v dim ;; raise_if (negb (Nat.eqb (shape_at a 0) (shape_at dist axis))) ValueError ;;; Ok a.
Definition check_arg (dim : nat) (dist : nd) (a : arg) (value : option nd) : res (option nd) :=
  match a with
  | AVal PNone => Ok value
  | AVal v => check_item dim 0 dist v ;;; Ok value
  | ADict d => vs <- mapM (fun kv => check_item dim 0 dist (snd kv)) d ;; Ok (last (map Some vs) value)
  end.
(** meta.py 141-190 for [p_e_a]; 186-190 look at [value] instead of the argument (NameError when no dictionary entry
    was looked at before). *)
Definition check_pea (dist : nd) (a : arg) (value : option nd) : res unit :=
  match a with
  | AVal PNone => Ok tt
  | AVal v =>
      check_array v 3 ;;;
      match value with
      | None => Err NameError
      | Some w => raise_if (negb (Nat.eqb (shape_at w 0) (shape_at dist 1))) ValueError
      end
  | ADict d => mapM (fun kv => check_item 3 1 dist (snd kv)) d ;;; Ok tt
  end.
Definition ope_check (g : ope_args) : res unit :=
  dist <- check_array (g_dist g) 3 ;;
  v <- check_q 3 (g_q g) dist ;;
  v <- check_arg 1 dist (g_epscore g) v ;;
  v <- check_arg 1 dist (g_iw g) v ;;
  v <- check_arg 2 dist (g_embed g) v ;;
  v <- check_arg 3 dist (g_pib g) v ;;
  check_pea dist (g_pea g) v.

(** meta.py 222-240: [_preprocess_model_based_input]. *)
Definition arg_for (nm : string) (a : arg) : pyval := match a with AVal v => v | ADict d => or_none (dget d nm) end.

(** meta.py 192-220: the keyword arguments of one estimator (the dictionary of all of them is built first: a missing
    key of the feedback is a KeyError even before the first estimator runs). *)
Definition ope_input (fb : dict pyval) (g : ope_args) (nm : string) : res ope_in :=
  a <- dgetitem fb "action"%string ;;
  p <- dgetitem fb "position"%string ;;
  r <- dgetitem fb "reward"%string ;;
  x <- dgetitem fb "context"%string ;;
  Ok (mkIn a p r x (or_none (dget fb "pscore"%string)) (g_dist g) (arg_for nm (g_q g)) (arg_for nm (g_epscore g))
           (arg_for nm (g_iw g)) (arg_for nm (g_embed g)) (arg_for nm (g_pib g)) (arg_for nm (g_pea g))).
(** meta.py 102-220: [_create_estimator_inputs]. *)
Definition ope_inputs (o : ope ope_in) (s : store) (g : ope_args) : res (dict ope_in) :=
  ope_check g ;;;
  mapM (fun kv => i <- ope_input (s (o_ref o)) g (fst kv) ;; Ok (fst kv, i)) (o_ests o).

(** meta.py 300-304, 392-396 *)
Definition need_model (m : bool) (q : arg) : res unit := raise_if (m && arg_is_none q)%bool ValueError.

(** meta.py 242-320: [estimate_policy_values]. *)
Definition ope_values (o : ope ope_in) (s : store) (g : ope_args) : res (dict num) :=
  need_model (o_model o) (g_q g) ;;;
  ins <- ope_inputs o s g ;;
  run (fun e i => e_value e i) (o_ests o) (dgetitem ins) [].

(** meta.py 322-421: [estimate_intervals]. *)
Definition ope_intervals (o : ope ope_in) (s : store) (g : ope_args) (alpha : num) (n_boot : Z) (seed : option Z)
  : res (dict interval) :=
  need_model (o_model o) (g_q g) ;;;
  check_confidence_interval_arguments alpha n_boot ;;;
  ins <- ope_inputs o s g ;;
  run (fun e i => e_interval e i alpha n_boot seed) (o_ests o) (dgetitem ins) [].

(** meta.py 657-775: [evaluate_performance_of_estimators] (and 777-857: the same numbers in a data frame). *)
Definition ope_performance (o : ope ope_in) (s : store) (truth : num) (g : ope_args) (metric : string) : res (dict num) :=
  check_metric metric truth ;;;
  ins <- ope_inputs o s g ;;
  run (fun e i => v <- e_value e i ;; Ok (metric_of metric truth v)) (o_ests o) (dgetitem ins) [].

(** meta.py 423-530: [summarize_off_policy_estimates]. *)
Definition ope_summary (o : ope ope_in) (s : store) (g : ope_args) (alpha : num) (n_boot : Z) (seed : option Z)
  : res (dict (num * num) * dict interval) :=
  v <- ope_values o s g ;;
  ci <- ope_intervals o s g alpha n_boot seed ;;
  r <- dgetitem (s (o_ref o)) "reward"%string ;;
  base <- val_mean r ;;
  Ok (with_relative base v, ci).

(** ** obp/ope/meta_multi.py *)

(** Models: ope/meta_multi.py 174-199. *)
Record multi_in := mkMIn {
  m_reward : pyval; m_action : pyval; m_position : pyval; m_stratum : pyval; m_pscore : pyval; m_pscore_avg : pyval;
  m_dist : pyval; m_q : pyval; m_epscore : pyval; m_epscore_avg : pyval }.
(** Models: ope/meta_multi.py 116-125. *)
Record multi_args := mkMArgs { h_dist : pyval; h_q : arg; h_epscore : arg; h_epscore_avg : arg }.

(** Models: ope/meta_multi.py 101. *)
Definition multi_keys : list string := ["action"; "position"; "reward"]%string.
(** Models: ope/meta_multi.py 99-114. *)
Definition multi_init := @meta_init multi_in multi_keys.

(** meta_multi.py 126-172 *)
Definition multi_check (g : multi_args) : res unit :=
  dist <- check_array (h_dist g) 3 ;;
  check_q 3 (h_q g) dist ;;;
  check_arg 1 dist (h_epscore g) None ;;;
  check_arg 1 dist (h_epscore_avg g) None ;;; Ok tt.

(** meta_multi.py 174-199 *)
Definition multi_input (fb : dict pyval) (g : multi_args) (nm : string) : res multi_in :=
  r <- dgetitem fb "reward"%string ;;
  a <- dgetitem fb "action"%string ;;
  p <- dgetitem fb "position"%string ;;
  Ok (mkMIn r a p (or_none (dget fb "stratum_idx"%string)) (or_none (dget fb "pscore"%string))
            (or_none (dget fb "pscore_avg"%string)) (h_dist g) (arg_for nm (h_q g)) (arg_for nm (h_epscore g))
            (arg_for nm (h_epscore_avg g))).
Definition multi_inputs (o : ope multi_in) (s : store) (g : multi_args) : res (dict multi_in) :=
  multi_check g ;;;
  mapM (fun kv => i <- multi_input (s (o_ref o)) g (fst kv) ;; Ok (fst kv, i)) (o_ests o).

(** meta_multi.py 201-256 *)
Definition multi_values (o : ope multi_in) (s : store) (g : multi_args) : res (dict num) :=
  need_model (o_model o) (h_q g) ;;;
  ins <- multi_inputs o s g ;;
  run (fun e i => e_value e i) (o_ests o) (dgetitem ins) [].
(** meta_multi.py 258-334 *)
Definition multi_intervals (o : ope multi_in) (s : store) (g : multi_args) (alpha : num) (n_boot : Z) (seed : option Z)
  : res (dict interval) :=
  need_model (o_model o) (h_q g) ;;;
  check_confidence_interval_arguments alpha n_boot ;;;
  ins <- multi_inputs o s g ;;
  run (fun e i => e_interval e i alpha n_boot seed) (o_ests o) (dgetitem ins) [].
(** meta_multi.py 519-616 (and 664-675: the same numbers in a data frame) *)
Definition multi_performance (o : ope multi_in) (s : store) (truth : num) (g : multi_args) (metric : string) : res (dict num) :=
  check_metric metric truth ;;;
  ins <- multi_inputs o s g ;;
  run (fun e i => v <- e_value e i ;; Ok (metric_of metric truth v)) (o_ests o) (dgetitem ins) [].
(** meta_multi.py 336-417 *)
Definition multi_summary (o : ope multi_in) (s : store) (g : multi_args) (alpha : num) (n_boot : Z) (seed : option Z)
  : res (dict (num * num) * dict interval) :=
  v <- multi_values o s g ;;
  ci <- multi_intervals o s g alpha n_boot seed ;;
  r <- dgetitem (s (o_ref o)) "reward"%string ;;
  base <- val_mean r ;;
  Ok (with_relative base v, ci).

(** ** obp/ope/meta_slate.py *)

(** [None] for an entry the feedback does not have: the argument is then not passed at all. *)
(** Models: ope/meta_slate.py 160-187. *)
Record slate_in := mkSIn {
  s_slate_id : option pyval; s_action : option pyval; s_reward : option pyval; s_position : option pyval;
  s_pscore : option pyval; s_pscore_item : option pyval; s_pscore_cascade : option pyval;
  s_epscore : pyval; s_epscore_item : pyval; s_epscore_cascade : pyval; s_edist : pyval; s_q : pyval }.
(** Models: ope/meta_slate.py 136-145. *)
Record slate_args := mkSArgs { k_pscore : pyval; k_item : pyval; k_cascade : pyval; k_dist : pyval; k_q : pyval }.

(** Models: ope/meta_slate.py 119-127. *)
Definition slate_keys : list string := ["slate_id"; "context"; "action"; "reward"; "position"]%string.
(** Models: ope/meta_slate.py 117-134. *)
Definition slate_init := @meta_init slate_in slate_keys.
(** Models: ope/meta_slate.py 146-160. *)
Definition is_none (v : pyval) : bool := match v with PNone => true | _ => false end.

(** meta_slate.py 136-187: [_create_estimator_inputs]; [e_model] marks the cascade doubly robust estimator. *)
Definition slate_inputs (o : ope slate_in) (s : store) (g : slate_args) : res slate_in :=
  raise_if (is_none (k_pscore g) && is_none (k_item g) && is_none (k_cascade g))%bool ValueError ;;;
  raise_if (o_model o && is_none (k_dist g))%bool ValueError ;;;
  raise_if (o_model o && is_none (k_q g))%bool ValueError ;;;
  let fb := s (o_ref o) in
  Ok (mkSIn (dget fb "slate_id") (dget fb "action") (dget fb "reward") (dget fb "position") (dget fb "pscore")
            (dget fb "pscore_item_position") (dget fb "pscore_cascade")
            (k_pscore g) (k_item g) (k_cascade g) (k_dist g) (k_q g))%string.

(** meta_slate.py 189-242 *)
Definition slate_values (o : ope slate_in) (s : store) (g : slate_args) : res (dict num) :=
  i <- slate_inputs o s g ;;
  run (fun e i => e_value e i) (o_ests o) (fun _ => Ok i) [].
(** meta_slate.py 244-316 *)
Definition slate_intervals (o : ope slate_in) (s : store) (g : slate_args) (alpha : num) (n_boot : Z) (seed : option Z)
  : res (dict interval) :=
  check_confidence_interval_arguments alpha n_boot ;;;
  i <- slate_inputs o s g ;;
  run (fun e i => e_interval e i alpha n_boot seed) (o_ests o) (fun _ => Ok i) [].
(** meta_slate.py 518-617 (and 661-673: the same numbers in a data frame) *)
Definition slate_performance (o : ope slate_in) (s : store) (truth : num) (g : slate_args) (metric : string) : res (dict num) :=
  check_metric metric truth ;;;
  i <- slate_inputs o s g ;;
  run (fun e i => v <- e_value e i ;; Ok (metric_of metric truth v)) (o_ests o) (fun _ => Ok i) [].
(** meta_slate.py 318-406: the behaviour policy's value is the total reward over the number of distinct slates. *)
Definition n_slates (v : pyval) : res nat :=
  match v with
  | PArr (NI l) => Ok (length (np_unique l))
  | PArr a => Ok (length (ndistinct (flatten a)))
  | _ => Err AttributeError
  end.
Definition slate_summary (o : ope slate_in) (s : store) (g : slate_args) (alpha : num) (n_boot : Z) (seed : option Z)
  : res (dict (num * num) * dict interval) :=
  v <- slate_values o s g ;;
  ci <- slate_intervals o s g alpha n_boot seed ;;
  r <- dgetitem (s (o_ref o)) "reward"%string ;;
  total <- val_sum r ;;
  ids <- dgetitem (s (o_ref o)) "slate_id"%string ;;
  n <- n_slates ids ;;
  Ok (with_relative (ndiv total (nnat n)) v, ci).

(** ** obp/ope/meta_continuous.py *)

(** Models: ope/meta_continuous.py 153-178. *)
Record cont_in := mkCIn { c_reward : pyval; c_action_b : pyval; c_pscore : pyval; c_action_e : pyval; c_q : pyval }.

(** Models: ope/meta_continuous.py 100. *)
Definition cont_keys : list string := ["action"; "reward"; "pscore"]%string.
(** meta_continuous.py 98-111: [__post_init__] writes into the caller's dictionary. *)
Definition cont_init (s : store) (ref : nat) (ests : list (est cont_in)) : res (ope cont_in * store) :=
  check_keys cont_keys (s ref) ;;;
  a <- dgetitem (s ref) "action"%string ;;
  Ok (mkOpe ref (est_dict ests) (any_model ests), supd s ref (dset (s ref) "action_by_behavior_policy" a)).

(** meta_continuous.py 113-178: [_create_estimator_inputs]. *)
Definition cont_input (fb : dict pyval) (action_e : pyval) (q : arg) (nm : string) : res cont_in :=
  r <- dgetitem fb "reward"%string ;;
  b <- dgetitem fb "action_by_behavior_policy"%string ;;
  p <- dgetitem fb "pscore"%string ;;
  Ok (mkCIn r b p action_e (arg_for nm q)).
Definition cont_inputs (o : ope cont_in) (s : store) (action_e : pyval) (q : arg) : res (dict cont_in) :=
  e <- check_array action_e 1 ;;
  check_q 1 q e ;;;
  mapM (fun kv => i <- cont_input (s (o_ref o)) action_e q (fst kv) ;; Ok (fst kv, i)) (o_ests o).

(** meta_continuous.py 180-222 *)
Definition cont_values (o : ope cont_in) (s : store) (action_e : pyval) (q : arg) : res (dict num) :=
  need_model (o_model o) q ;;;
  ins <- cont_inputs o s action_e q ;;
  run (fun e i => e_value e i) (o_ests o) (dgetitem ins) [].
(** meta_continuous.py 224-286 *)
Definition cont_intervals (o : ope cont_in) (s : store) (action_e : pyval) (q : arg) (alpha : num) (n_boot : Z)
    (seed : option Z) : res (dict interval) :=
  need_model (o_model o) q ;;;
  check_confidence_interval_arguments alpha n_boot ;;;
  ins <- cont_inputs o s action_e q ;;
  run (fun e i => e_interval e i alpha n_boot seed) (o_ests o) (dgetitem ins) [].
(** meta_continuous.py 443-523 (and 559-568: the same numbers in a data frame) *)
Definition cont_performance (o : ope cont_in) (s : store) (truth : num) (action_e : pyval) (q : arg) (metric : string)
  : res (dict num) :=
  check_metric metric truth ;;;
  ins <- cont_inputs o s action_e q ;;
  run (fun e i => v <- e_value e i ;; Ok (metric_of metric truth v)) (o_ests o) (dgetitem ins) [].
(** meta_continuous.py 288-353 *)
Definition cont_summary (o : ope cont_in) (s : store) (action_e : pyval) (q : arg) (alpha : num) (n_boot : Z)
    (seed : option Z) : res (dict (num * num) * dict interval) :=
  v <- cont_values o s action_e q ;;
  ci <- cont_intervals o s action_e q alpha n_boot seed ;;
  r <- dgetitem (s (o_ref o)) "reward"%string ;;
  base <- val_mean r ;;
  Ok (with_relative base v, ci).

(** ** The estimators of estimators.py as keyword-argument functions *)

(** [check_array] on an array of the expected kind; an integer array where floats are expected is converted by the
    arithmetic. *)
(** Models: utils.py check_array, 117-157; ope/meta_continuous.py 98-110. *)
Definition arr1_of (v : pyval) : res arr1 := a <- check_array v 1 ;; Ok (flatten a).
(** Models: utils.py check_array, 117-157. *)
Definition ints_of (v : pyval) : res (list Z) := a <- check_array v 1 ;; match a with NI l => Ok l | _ => Err ValueError end.
(** Models: utils.py check_array, 117-157. *)
Definition arr3_of (v : pyval) : res arr3 := a <- check_array v 3 ;; match a with N3 m => Ok m | _ => Err ValueError end.
(** Models: utils.py check_array, 117-157. *)
Definition opt_of {A} (f : pyval -> res A) (v : pyval) : res (option A) := if is_none v then Ok None else rmap Some (f v).

(** estimators.py 340-407 (InverseProbabilityWeighting and subclasses). *)
Definition ipw_kw (round : arr1 -> list Z -> arr1 -> arr3 -> list Z -> res arr1) (use_est : bool) (i : ope_in) : res num :=
  r <- arr1_of (i_reward i) ;; a <- ints_of (i_action i) ;;
  ps <- arr1_of (if use_est then i_epscore i else i_pscore i) ;;
  d <- arr3_of (i_dist i) ;; p <- opt_of ints_of (i_position i) ;;
  ipw_like_value round false r a d (Some ps) p None.
(** estimators.py 743-788 *)
Definition dm_kw (i : ope_in) : res num :=
  q <- arr3_of (i_q i) ;; d <- arr3_of (i_dist i) ;; p <- opt_of ints_of (i_position i) ;; dm_value d q p.
(** estimators.py 998-1075 (DoublyRobust and subclasses). *)
Definition dr_kw (round : arr1 -> list Z -> arr1 -> arr3 -> arr3 -> list Z -> res arr1) (use_est : bool) (i : ope_in) : res num :=
  q <- arr3_of (i_q i) ;; r <- arr1_of (i_reward i) ;; a <- ints_of (i_action i) ;;
  ps <- arr1_of (if use_est then i_epscore i else i_pscore i) ;;
  d <- arr3_of (i_dist i) ;; p <- opt_of ints_of (i_position i) ;;
  dr_like_value round false r a d q (Some ps) p None.
