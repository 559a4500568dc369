(** * M_Visual: model of the figures of obp/ope/meta.py, meta_multi.py, meta_continuous.py and meta_slate.py

    A figure is the list of its bars (label and height).  Left out: the tests of [fig_dir] and [fig_name], fonts, colours and saving;
    the error bars of seaborn's own bootstrap.  seaborn's [barplot] draws the mean of the entries of a column that are not NaN, and
    matplotlib's [add_subplot(rows, 1, index)] raises ValueError unless 1 <= index <= rows (our reading of the two libraries). *)

From Coq Require Import String Ascii Reals List ZArith Bool.
From Verif Require Import Num NpList M_Utils M_Estimators M_Meta.
Import ListNotations.
Open Scope R_scope.

(** Python's [str.upper] on ASCII.  Models: ope/meta.py 632, 991. *)
Definition upper_char (c : ascii) : ascii :=
  let n := nat_of_ascii c in if (Nat.leb 97 n && Nat.leb n 122)%bool then ascii_of_nat (n - 32) else c.
(** Models: ope/meta.py 632, 991. *)
Fixpoint upper (s : string) : string := match s with EmptyString => EmptyString | String c r => String (upper_char c) (upper r) end.

(** The height of the bar of one column.  Models: ope/meta.py 640-646 (seaborn). *)
Definition bar (col : arr1) : num := nmean (filter (fun x => negb (is_nan x)) col).
(** [DataFrame(dict of arrays)]: all columns have the same length.  Models: ope/meta.py 630, 976. *)
Definition frame (cols : dict arr1) : res unit :=
  raise_if (negb (forallb (fun c => Nat.eqb (length (snd c)) (length (snd (nth 0 cols (""%string, []))))) cols)) ValueError.
(** [df /= reward.mean()] when [is_relative].  Models: ope/meta.py 635-636, 979-980. *)
Definition scaled (base : option num) (col : arr1) : arr1 := match base with None => col | Some b => map (fun x => ndiv x b) col end.
(** Models: ope/meta.py 635-636. *)
Definition base_of (fb : dict pyval) (is_relative : bool) : res (option num) :=
  if is_relative then r <- dgetitem fb "reward"%string ;; b <- val_mean r ;; Ok (Some b) else Ok None.

Section Figures.
Context {I : Type}.
(** The method [_estimate_round_rewards] of an estimator object, called with the keyword arguments of the front end. *)
Context (rounds_of : est I -> I -> res arr1).

(** meta.py 616-647, meta_multi.py 483-512, meta_continuous.py 407-434: [visualize_off_policy_estimates], given the estimators' inputs. *)
Definition figure (ests : dict (est I)) (fb : dict pyval) (inputs : res (dict I)) (is_relative : bool) : res (dict num) :=
  ins <- inputs ;;
  cols <- run rounds_of ests (dgetitem ins) [] ;;
  frame cols ;;;
  base <- base_of fb is_relative ;;
  Ok (map (fun c => (upper (fst c), bar (scaled base (snd c)))) cols).

(** meta.py 951-971: the rounds of every estimator under every policy; [inputs] are the estimators' inputs for one policy. *)
Fixpoint fill_table (ests : dict (est I)) (inputs : pyval -> res (dict I)) (policies : list (string * pyval)) (table : dict (dict arr1))
    : res (dict (dict arr1)) :=
  match policies with
  | [] => Ok table
  | (nm, dist) :: r =>
      ins <- inputs dist ;;
      cols <- run rounds_of ests (dgetitem ins) [] ;;
      fill_table ests inputs r
        (map (fun row => (fst row, match dget cols (fst row) with Some c => dset (snd row) nm c | None => snd row end)) table)
  end.
(** meta.py 975-996: one panel per estimator, in a grid with one row per policy. *)
Fixpoint panels (n_policies i : nat) (fb : dict pyval) (is_relative : bool) (table : dict (dict arr1)) : res (list (string * dict num)) :=
  match table with
  | [] => Ok []
  | (nm, row) :: r =>
      frame row ;;;
      base <- base_of fb is_relative ;;
      raise_if (Nat.ltb n_policies (i + 1)) ValueError ;;;
      rest <- panels n_policies (i + 1) fb is_relative r ;;
      Ok ((upper nm, map (fun c => (fst c, bar (scaled base (snd c)))) row) :: rest)
  end.
(** meta.py 942-999, meta_multi.py 740-794, meta_continuous.py 621-675: [visualize_off_policy_estimates_of_multiple_policies]. *)
Definition panels_figure (ests : dict (est I)) (fb : dict pyval) (inputs : pyval -> res (dict I)) (names : list string) (dists : list pyval)
    (is_relative : bool) : res (list (string * dict num)) :=
  raise_if (negb (Nat.eqb (length names) (length dists))) ValueError ;;;
  table <- fill_table ests inputs (combine names dists) (map (fun kv => (fst kv, [])) ests) ;;
  panels (length dists) 0 fb is_relative table.
End Figures.

(** meta.py 532-655: [visualize_off_policy_estimates]. *)
Definition ope_figure rounds_of (o : ope ope_in) (s : store) (g : ope_args) (is_relative : bool) : res (dict num) :=
  figure rounds_of (o_ests o) (s (o_ref o)) (ope_inputs o s g) is_relative.
(** meta_multi.py 426-519. *)
Definition multi_figure rounds_of (o : ope multi_in) (s : store) (g : multi_args) (is_relative : bool) : res (dict num) :=
  figure rounds_of (o_ests o) (s (o_ref o)) (multi_inputs o s g) is_relative.
(** meta_continuous.py 358-441. *)
Definition cont_figure rounds_of (o : ope cont_in) (s : store) (action_e : pyval) (q : arg) (is_relative : bool) : res (dict num) :=
  figure rounds_of (o_ests o) (s (o_ref o)) (cont_inputs o s action_e q) is_relative.
(** meta.py 859-999: the other arguments are the same for all policies. *)
Definition ope_panels rounds_of (o : ope ope_in) (s : store) (g : ope_args) (names : list string) (dists : list pyval) (is_relative : bool) :=
  panels_figure rounds_of (o_ests o) (s (o_ref o))
    (fun d => ope_inputs o s (mkArgs d (g_q g) (g_epscore g) (g_iw g) (g_embed g) (g_pib g) (g_pea g))) names dists is_relative.

(** meta_slate.py 468-516: the bars (label, height, half-length of the error bar) come from the table of intervals. *)
Definition slate_figure (o : ope slate_in) (s : store) (g : slate_args) (alpha : num) (n_boot : Z) (seed : option Z) (is_relative : bool)
    : res (dict (num * num)) :=
  sm <- slate_summary o s g alpha n_boot seed ;;
  let rows := map (fun kv => (fst kv, (ci_mean (snd kv), nabs (nsub (ci_upper (snd kv)) (ci_lower (snd kv)))))) (snd sm) in
  if is_relative then
    r <- dgetitem (s (o_ref o)) "reward"%string ;; total <- val_sum r ;;
    ids <- dgetitem (s (o_ref o)) "slate_id"%string ;; n <- n_slates ids ;;
    let base := ndiv total (nnat n) in
    Ok (map (fun kv => (fst kv, (ndiv (fst (snd kv)) base, ndiv (snd (snd kv)) base))) rows)
  else Ok rows.

(** ** [_estimate_round_rewards] on the keyword arguments of [OffPolicyEvaluation]

    The propensities are always the logged ones: [use_estimated_pscore] is only looked at by [estimate_policy_value] and
    [estimate_interval].  Arguments of a wrong type or dimension are an error here; NumPy would fail or broadcast. *)
(** Models: ope/estimators.py 295-338 (and the other importance weighting estimators). *)
Definition ipw_rounds_kw (round : arr1 -> list Z -> arr1 -> arr3 -> list Z -> res arr1) (i : ope_in) : res arr1 :=
  r <- arr1_of (i_reward i) ;; a <- ints_of (i_action i) ;; ps <- arr1_of (i_pscore i) ;;
  d <- arr3_of (i_dist i) ;; p <- opt_of ints_of (i_position i) ;;
  round r a ps d (default_position d p).
(** Models: ope/estimators.py 703-741. *)
Definition dm_rounds_kw (i : ope_in) : res arr1 :=
  q <- arr3_of (i_q i) ;; d <- arr3_of (i_dist i) ;; p <- opt_of ints_of (i_position i) ;; dm_round d q (default_position d p).
(** Models: ope/estimators.py 937-996 (and the other doubly robust estimators). *)
Definition dr_rounds_kw (round : arr1 -> list Z -> arr1 -> arr3 -> arr3 -> list Z -> res arr1) (i : ope_in) : res arr1 :=
  q <- arr3_of (i_q i) ;; r <- arr1_of (i_reward i) ;; a <- ints_of (i_action i) ;; ps <- arr1_of (i_pscore i) ;;
  d <- arr3_of (i_dist i) ;; p <- opt_of ints_of (i_position i) ;;
  round r a ps d q (default_position d p).
