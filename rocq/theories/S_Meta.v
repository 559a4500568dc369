(** * S_Meta: vocabulary for the evaluation front ends.  Uses only the value types and dictionary lookup of M_Meta. *)

From Coq Require Import String Reals List ZArith Bool.
From Verif Require Import Num NpList M_Utils S_Base M_Meta.
Import ListNotations.
Open Scope R_scope.

(** The distinct strings of a list, in order of first occurrence. *)
Fixpoint firsts (l : list string) : list string :=
  match l with [] => [] | x :: r => x :: filter (fun y => negb (String.eqb y x)) (firsts r) end.

(** [es] are the estimators that count: one per distinct name, in order of first occurrence; the last given one of each
    name. *)
Definition in_charge {I} (ests es : list (est I)) : Prop :=
  map e_name es = firsts (map e_name ests) /\
  forall e, In e es -> exists before after, ests = before ++ e :: after /\ ~ In (e_name e) (map e_name after).

(** One entry per estimator; the first exception stops everything. *)
Definition each {I B} (es : list (est I)) (f : est I -> res B) : res (dict B) :=
  mapM (fun e => v <- f e ;; Ok (e_name e, v)) es.

(** An argument given for all estimators, or by name with None for missing names. *)
Definition given (a : arg) (nm : string) : pyval :=
  match a with AVal v => v | ADict d => match dget d nm with Some v => v | None => PNone end end.
Definition optional (fb : dict pyval) (k : string) : pyval := match dget fb k with Some v => v | None => PNone end.
Definition has (fb : dict pyval) (k : string) (v : pyval) : Prop := dget fb k = Some v.
Definition has_key (fb : dict pyval) (k : string) : Prop := exists v, has fb k v.

(** The keyword arguments an estimator named [nm] receives. *)
Definition ope_kwargs (fb : dict pyval) (g : ope_args) (nm : string) (i : ope_in) : Prop :=
  has fb "action" (i_action i) /\ has fb "position" (i_position i) /\ has fb "reward" (i_reward i) /\ has fb "context" (i_context i) /\
  i_pscore i = optional fb "pscore" /\ i_dist i = g_dist g /\
  i_q i = given (g_q g) nm /\ i_epscore i = given (g_epscore g) nm /\ i_iw i = given (g_iw g) nm /\
  i_embed i = given (g_embed g) nm /\ i_pib i = given (g_pib g) nm /\ i_pea i = given (g_pea g) nm.
Definition multi_kwargs (fb : dict pyval) (g : multi_args) (nm : string) (i : multi_in) : Prop :=
  has fb "reward" (m_reward i) /\ has fb "action" (m_action i) /\ has fb "position" (m_position i) /\
  m_stratum i = optional fb "stratum_idx" /\ m_pscore i = optional fb "pscore" /\ m_pscore_avg i = optional fb "pscore_avg" /\
  m_dist i = h_dist g /\ m_q i = given (h_q g) nm /\ m_epscore i = given (h_epscore g) nm /\ m_epscore_avg i = given (h_epscore_avg g) nm.
Definition slate_kwargs (fb : dict pyval) (g : slate_args) (i : slate_in) : Prop :=
  s_slate_id i = dget fb "slate_id" /\ s_action i = dget fb "action" /\ s_reward i = dget fb "reward" /\ s_position i = dget fb "position" /\
  s_pscore i = dget fb "pscore" /\ s_pscore_item i = dget fb "pscore_item_position" /\ s_pscore_cascade i = dget fb "pscore_cascade" /\
  s_epscore i = k_pscore g /\ s_epscore_item i = k_item g /\ s_epscore_cascade i = k_cascade g /\ s_edist i = k_dist g /\ s_q i = k_q g.
Definition cont_kwargs (fb : dict pyval) (action_e : pyval) (q : arg) (nm : string) (i : cont_in) : Prop :=
  has fb "reward" (c_reward i) /\ has fb "action_by_behavior_policy" (c_action_b i) /\ has fb "pscore" (c_pscore i) /\
  c_action_e i = action_e /\ c_q i = given q nm.

(** Shapes. *)
Definition array_of (v : pyval) (dim : nat) (a : nd) : Prop := v = PArr a /\ length (shape a) = dim.
(** Every array given, if any, satisfies [P]. *)
Definition all_given (a : arg) (P : pyval -> Prop) : Prop :=
  match a with AVal PNone => True | AVal v => P v | ADict d => forall nm v, In (nm, v) d -> P v end.
Definition rows_ok (dim rows : nat) (v : pyval) : Prop := exists a, array_of v dim a /\ nth 0 (shape a) 0%nat = rows.
Definition shape_ok (dim : nat) (dist : nd) (v : pyval) : Prop := exists a, array_of v dim a /\ shape a = shape dist.

(** The optional inputs fit the policy (all but the embedding distribution). *)
Definition args_fit (g : ope_args) (dist : nd) : Prop :=
  array_of (g_dist g) 3 dist /\ all_given (g_q g) (shape_ok 3 dist) /\
  all_given (g_epscore g) (rows_ok 1 (nth 0 (shape dist) 0%nat)) /\ all_given (g_iw g) (rows_ok 1 (nth 0 (shape dist) 0%nat)) /\
  all_given (g_embed g) (rows_ok 2 (nth 0 (shape dist) 0%nat)) /\ all_given (g_pib g) (rows_ok 3 (nth 0 (shape dist) 0%nat)).
Definition multi_fit (g : multi_args) (dist : nd) : Prop :=
  array_of (h_dist g) 3 dist /\ all_given (h_q g) (shape_ok 3 dist) /\
  all_given (h_epscore g) (rows_ok 1 (nth 0 (shape dist) 0%nat)) /\ all_given (h_epscore_avg g) (rows_ok 1 (nth 0 (shape dist) 0%nat)).
Definition by_name (a : arg) : Prop := match a with AVal PNone => True | AVal _ => False | ADict _ => True end.
(** No dictionary entry. *)
Definition no_entries (a : arg) : Prop := match a with ADict (_ :: _) => False | _ => True end.

(** Reported errors, given what the values method returns: squared error, and relative error with a nonzero truth. *)
Definition reports_errors (values : res (dict num)) (performance : num -> string -> res (dict num)) : Prop :=
  (forall vs t, values = Ok (map (fun kv => (fst kv, Fin (snd kv))) vs) ->
     performance (Fin t) "se"%string = Ok (map (fun kv => (fst kv, Fin ((snd kv - t) ^ 2))) vs) /\
     (t <> 0 -> performance (Fin t) "relative-ee"%string = Ok (map (fun kv => (fst kv, Fin (Rabs ((snd kv - t) / t)))) vs))) /\
  (forall truth metric, metric <> "se"%string -> metric <> "relative-ee"%string -> performance truth metric = Err ValueError) /\
  performance (Fin 0) "relative-ee"%string = Err ValueError.

(** Reported summary, given the two other methods and the value [base] of the behaviour policy. *)
Definition reports_relative (values : res (dict num)) (intervals : res (dict interval))
    (summary : res (dict (num * num) * dict interval)) (base : R) : Prop :=
  forall vs ci, values = Ok (map (fun kv => (fst kv, Fin (snd kv))) vs) -> intervals = Ok ci ->
    (0 < base -> summary = Ok (map (fun kv => (fst kv, (Fin (snd kv), Fin (snd kv / base)))) vs, ci)) /\
    (base <= 0 -> summary = Ok (map (fun kv => (fst kv, (Fin (snd kv), NaN))) vs, ci)).
