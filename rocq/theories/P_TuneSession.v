(** * P_TuneSession: histories of value and interval requests on one tuned estimator (C141), and its constructor. *)

From Coq Require Import String Reals List ZArith Bool Lia Lra Permutation Sorted.
From Verif Require Import Num NpList M_Utils M_Estimators M_Tuning M_Init S_Base S_Estimators S_Tuning S_Init L_Num L_Base L_Estimators L_Tuning L_Examples P_Tuning P_Init S_Examples.
Import ListNotations.
Open Scope R_scope.

(** ** Model *)

(** A request to a tuned estimator: its value, or an interval with its level, number of resamples and resampled indices.
    Models: ope/estimators_tuning.py 191-273, 275-371. *)
Inductive request := AskValue (i : tinput) | AskInterval (i : tinput) (alpha : R) (n_boot : Z) (choice : nat -> nat -> nat).
Inductive answer := AValue (r : res num) | AInterval (r : res interval).

(** A history of requests to one object. *)
(** Models: repeated calls of ope/estimators_tuning.py 191-273 and 275-371. *)
Fixpoint session (argsort : list num -> list nat) (ppf : nat -> R -> num) (o : tuner) (reqs : list request) : list answer :=
  match reqs with
  | [] => []
  | AskValue i :: rest => let '(o', r) := tuner_value argsort ppf o i in AValue r :: session argsort ppf o' rest
  | AskInterval i alpha n_boot choice :: rest =>
      let '(o', r) := tuner_interval argsort ppf o i alpha n_boot choice in AInterval r :: session argsort ppf o' rest
  end.

(** ** Statement *)

(** What is asked about a call: the value, or an interval. *)
Inductive question := Value | Interval (alpha : R) (n_boot : Z) (choice : nat -> nat -> nat).
Definition ask (c : call) (q : question) : request :=
  match q with Value => AskValue (call_input c) | Interval alpha n_boot choice => AskInterval (call_input c) alpha n_boot choice end.

(** The answer at hyper-parameter [lam]: the mean of the per-round contributions, or their bootstrap. *)
Definition answer_at (t : tuned) (lam : option R) (c : call) (q : question) : answer :=
  let terms := contribution (uses_model t) (kind_modifier t) lam (c_log c) in
  match q with
  | Value => AValue (Ok (Fin (avg (lg_n (c_log c)) terms)))
  | Interval alpha n_boot choice => AInterval (estimate_confidence_interval_by_bootstrap (tabF (lg_n (c_log c)) terms) alpha n_boot choice)
  end.

Lemma base_interval_ok t lam l arg eps alpha nb choice : accepted l -> is_policy l -> regular (kind_modifier t) lam ->
  position_arg l arg ->
  base_interval t (lam_num lam) (mkTinput (rewards l) (actions l) (policy l) (model_arg t l) (Some (pscores l)) arg eps) alpha nb choice
  = estimate_confidence_interval_by_bootstrap (tabF (lg_n l) (contribution (uses_model t) (kind_modifier t) lam l)) alpha nb choice.
Proof.
  intros H Hp Hr Ha. pose proof (base_round_ok t lam l H Hp Hr) as E.
  assert (Hps : pscore_arg l false (Some (pscores l)) eps) by reflexivity.
  destruct t; cbn [base_interval model_arg uses_model ti_q ti_reward ti_action ti_dist ti_ps ti_pos ti_eps];
    cbn [base_round uses_model] in E;
    unfold ipw_like_interval, dr_like_interval, ipw_like_rounds, dr_like_rounds;
    rewrite (choose_pscore_ok _ l) by auto; cbn [bind]; rewrite check_ok by auto; cbn [bind]; rewrite default_position_ok by auto;
    rewrite E; reflexivity.
Qed.

Lemma tuner_interval_ok argsort ppf o l ps arg eps alpha nb choice :
  accepted l -> is_policy l -> position_arg l arg -> pscore_arg l (tn_use_est o) ps eps ->
  supports (tn_kind o) (tn_use_est o) ->
  tuner_interval argsort ppf o (tuning_call l ps arg eps) alpha nb choice
  = match (match tn_best o with
           | Some h => Ok h
           | None => tune argsort ppf o (rewards l) (actions l) (pscores l) (policy l) (model_arg (tn_kind o) l) (positions l)
           end) with
    | Err e => (o, Err e)
    | Ok h => (match tn_best o with Some _ => o | None => set_best o h end,
               base_interval (tn_kind o) h
                 (mkTinput (rewards l) (actions l) (policy l) (model_arg (tn_kind o) l) (Some (pscores l))
                    (Some (positions l)) (if forwards_estimated_pscore (tn_kind o) then eps else None)) alpha nb choice)
    end.
Proof.
  intros H Hp Ha Hps Hs. unfold tuner_interval. rewrite public_check_ok by auto.
  unfold inner_input, tuning_call, ensure_tuned. cbn [ti_q ti_reward ti_action ti_dist ti_ps ti_pos ti_eps].
  rewrite default_position_ok by auto.
  rewrite (choose_pscore_ok _ l) by (eapply inner_pscore; eauto). cbn [bind]. destruct (tn_best o) as [h|]; [reflexivity|].
  destruct (tune argsort ppf o (rewards l) (actions l) (pscores l) (policy l) (model_arg (tn_kind o) l) (positions l)); reflexivity.
Qed.

Lemma session_remembered argsort ppf qs : forall o lam,
  tn_best o = Some (lam_num lam) -> regular (kind_modifier (tn_kind o)) lam -> supports (tn_kind o) (tn_use_est o) ->
  List.Forall (fun cq => good_call (tn_use_est o) (fst cq)) qs ->
  session argsort ppf o (map (fun cq => ask (fst cq) (snd cq)) qs) = map (fun cq => answer_at (tn_kind o) lam (fst cq) (snd cq)) qs.
Proof.
  induction qs as [|[c q] qs IH]; intros o lam Hb Hr Hs HF; [reflexivity|]. inversion HF as [|? ? (H1 & H2 & H3 & H4) HF']; subst.
  cbn [map fst snd]. destruct q; cbn [ask session answer_at]; unfold call_input at 1.
  - rewrite (remembered_value _ _ o _ _ _ _ lam) by auto. f_equal. apply IH; auto.
  - rewrite tuner_interval_ok, Hb by auto. rewrite base_interval_ok by auto using position_arg_positions. f_equal. apply IH; auto.
Qed.

(** ** C141 *)

(** Whatever is asked first about the first log, the object settles on one of its candidates, and answers everything from then
    on, values and intervals alike, at that candidate; which candidate depends on the first log only. *)
Theorem C141_one_hyperparameter : forall argsort ppf t lams m bound delta use_est o c,
  make_tuner t (map lam_num lams) m bound delta use_est = Ok o ->
  (forall lam, In lam lams -> regular (kind_modifier t) lam) -> supports t use_est ->
  good_call use_est c -> tunable argsort ppf m bound delta (c_log c) ->
  exists lam, In lam lams /\
    forall q qs, List.Forall (fun cq => good_call use_est (fst cq)) qs ->
    session argsort ppf o (map (fun cq => ask (fst cq) (snd cq)) ((c, q) :: qs)) = map (fun cq => answer_at t lam (fst cq) (snd cq)) ((c, q) :: qs).
Proof.
  intros argsort ppf t lams m bound delta ue o c Ho Hr Hs (Hacc & Hp & Ha & Hps) Ht.
  destruct (tune_candidate argsort ppf t lams m bound delta ue o (c_log c) Ho Hr Hacc Hp Ht) as (lam & Hl & E).
  pose proof (make_tuner_inv _ _ _ _ _ _ _ Ho) as (Eo & _ & _).
  exists lam. split; auto. intros q qs HF. cbn [map fst snd].
  pose proof (session_remembered argsort ppf qs (set_best o (lam_num lam)) lam) as S. rewrite Eo in *. cbn [set_best tn_best tn_kind tn_use_est] in S.
  destruct q; cbn [ask session answer_at]; unfold call_input at 1.
  - rewrite (fresh_value _ _ _ _ _ _ _ lam) by auto. f_equal. apply S; auto.
  - rewrite tuner_interval_ok by auto. cbn [tn_best tn_kind tn_use_est]. rewrite E.
    rewrite base_interval_ok by auto using position_arg_positions. f_equal. apply S; auto.
Qed.

(** The object built from floats accepts what the constructor of C123 accepts. *)
Lemma same_constructor t lams m bound delta use_est :
  tuning_init t (VList (map VFloat lams)) (VStr (match m with Slope => "slope" | Mse => "mse" end)) (VBool bound) (VFloat (Fin delta)) (VBool use_est) =
  match make_tuner t lams m bound delta use_est with Ok o => Ok (tn_lambdas o) | Err e => Err e end.
Proof.
  unfold tuning_init, make_tuner, check_lambdas. set (mx := match t with T_SGIPW | T_SGDR => Fin 1 | _ => PInf end).
  assert (E : check_lambdas_v mx (VList (map VFloat lams)) =
    match lams with [] => Err ValueError | _ => mapM (fun h => check_scalar h (Some (Fin 0)) (Some mx) ;;; raise_if (negb (neqb h h)) ValueError) lams ;;; Ok lams end).
  { assert (G : forall l, mapM (fun h => check_scalar_v h is_number (Some (Fin 0)) (Some mx) ;;; raise_if (negb (neqb (num_of h) (num_of h))) ValueError ;;; Ok (num_of h)) (map VFloat l)
      = (mapM (fun h => check_scalar h (Some (Fin 0)) (Some mx) ;;; raise_if (negb (neqb h h)) ValueError) l ;;; Ok l)).
    { induction l as [|h l IH]; [reflexivity|]. cbn [map mapM]. rewrite IH. cbn [check_scalar_v is_number num_of negb raise_if bind].
      unfold check_scalar_v. cbn [is_number negb raise_if bind num_of]. destruct (check_scalar h (Some (Fin 0)) (Some mx)); [|reflexivity]. cbn [bind].
      destruct (raise_if (negb (neqb h h)) ValueError); [|reflexivity]. cbn [bind].
      destruct (mapM (fun h0 => check_scalar h0 (Some (Fin 0)) (Some mx) ;;; raise_if (negb (neqb h0 h0)) ValueError) l); reflexivity. }
    unfold check_lambdas_v. destruct lams as [|h l]; [reflexivity|]. rewrite <- G. reflexivity. }
  rewrite E. destruct lams as [|h l]; [reflexivity|].
  destruct (mapM _ (h :: l)); [|reflexivity]. cbn [bind]. unfold check_init_inputs_v, check_scalar_v.
  destruct m; cbn; destruct (check_scalar (Fin delta) (Some (Fin 0)) (Some (Fin 1))); reflexivity.
Qed.

Theorem C123_tuned_floats : forall t lams m bound delta use_est o,
  make_tuner t lams m bound delta use_est = Ok o <->
  lams <> [] /\ List.Forall (lambda_range (match t with T_SGIPW | T_SGDR => true | _ => false end)) lams /\ 0 <= delta <= 1 /\
  exists xs, Permutation xs lams /\ StronglySorted (tried_in_order t) xs /\ o = mkTuner t xs m bound delta use_est None.
Proof.
  intros t lams m bound delta ue o.
  assert (N : forall x y, number (VFloat x) y -> y = x) by (intros x y H; inversion H as [v z Hz|]; [inversion Hz|auto]).
  assert (F2 : forall P l ys, Forall2 (fun v x => number v x /\ P x) (map VFloat l) ys <-> ys = l /\ List.Forall P l).
  { intros P. induction l as [|h l IH]; intros ys; cbn [map].
    - split; [intros H; inversion H; auto|intros [-> _]; constructor].
    - split.
      + intros H. inversion H as [|? y ? ys' [H1 H2] H3]; subst. apply N in H1 as ->. apply IH in H3 as [-> H3]. auto.
      + intros [-> H]. inversion H; subst. constructor; [split; auto; constructor|]. apply IH. auto. }
  pose proof (fun xs => C123_tuned t (VList (map VFloat lams)) (VStr (match m with Slope => "slope" | Mse => "mse" end)) (VBool bound) (VFloat (Fin delta)) (VBool ue) xs) as C.
  rewrite same_constructor in C.
  split.
  - intros Ho. pose proof (make_tuner_inv _ _ _ _ _ _ _ Ho) as (Eo & Hne & Hd). specialize (C (tn_lambdas o)). rewrite Ho in C.
    destruct (proj1 C eq_refl) as ((vs & ys & E & _ & HF & HP & HS) & _). injection E as <-. apply F2 in HF as [-> HF].
    split; [auto|]. split; [auto|]. split; [auto|]. exists (tn_lambdas o). split; [auto|]. split; [auto|]. rewrite Eo. reflexivity.
  - intros (Hne & HF & Hd & xs & HP & HS & ->). specialize (C xs).
    assert (H : match make_tuner t lams m bound delta ue with Ok o => Ok (tn_lambdas o) | Err e => Err e end = Ok xs).
    { apply C. split.
      - exists (map VFloat lams), lams. split; [auto|]. split; [destruct lams; [congruence|discriminate]|]. split; [apply F2; auto|]. auto.
      - split; [destruct m; eexists; (split; [|reflexivity]); cbn; auto|]. split; [eexists; reflexivity|]. split; [|eexists; reflexivity].
        eexists. split; [reflexivity|]. right. eexists. split; [reflexivity|]. auto. }
    destruct (make_tuner t lams m bound delta ue) as [o|] eqn:Ho; [|discriminate]. injection H as <-.
    apply make_tuner_inv in Ho as (-> & _). reflexivity.
Qed.


(** ** C142: arguments the base estimator refuses *)

Lemma base_value_split t h ue i :
  base_value t h ue i =
  (q <- (if needs_model t then match ti_q i with Some q => Ok (Some q) | None => Err ValueError end else Ok None) ;;
   ps <- choose_pscore ue (ti_ps i) (ti_eps i) ;;
   check_ope_inputs (ti_dist i) (ti_pos i) (Some (ti_action i)) (Some (ti_reward i)) (Some ps) q None ;;;
   rr <- base_round t h (ti_reward i) (ti_action i) ps (ti_dist i) q (default_position (ti_dist i) (ti_pos i)) ;;
   Ok (nmean rr)).
Proof.
  unfold base_value, base_round. destruct t, (ti_q i); cbn [needs_model bind]; try reflexivity;
    unfold ipw_value, sgipw_value, dr_value, switch_value, dros_value, sgdr_value, ipw_like_value, dr_like_value, ipw_like_rounds, dr_like_rounds;
    destruct (choose_pscore ue (ti_ps i) (ti_eps i)); cbn [bind]; try reflexivity;
    match goal with |- context[check_ope_inputs ?a ?b ?c ?d ?e ?f ?g] => destruct (check_ope_inputs a b c d e f g); reflexivity end.
Qed.
Lemma base_interval_split t h i alpha nb choice :
  base_interval t h i alpha nb choice =
  (q <- (if needs_model t then match ti_q i with Some q => Ok (Some q) | None => Err ValueError end else Ok None) ;;
   ps <- choose_pscore false (ti_ps i) (ti_eps i) ;;
   check_ope_inputs (ti_dist i) (ti_pos i) (Some (ti_action i)) (Some (ti_reward i)) (Some ps) q None ;;;
   rr <- base_round t h (ti_reward i) (ti_action i) ps (ti_dist i) q (default_position (ti_dist i) (ti_pos i)) ;;
   estimate_confidence_interval_by_bootstrap rr alpha nb choice).
Proof.
  unfold base_interval, base_round. destruct t, (ti_q i); cbn [needs_model bind]; try reflexivity;
    unfold ipw_like_interval, dr_like_interval, ipw_like_rounds, dr_like_rounds;
    destruct (choose_pscore false (ti_ps i) (ti_eps i)); cbn [bind]; try reflexivity;
    match goal with |- context[check_ope_inputs ?a ?b ?c ?d ?e ?f ?g] => destruct (check_ope_inputs a b c d e f g); reflexivity end.
Qed.

Lemma base_mse_err t h rw ac ps d q pos b dl e : base_round t h rw ac ps d q pos = Err e -> base_mse t h rw ac ps d q pos b dl = Err e.
Proof.
  unfold base_round, base_mse, ipw_mse, sgipw_mse, dr_mse, switch_mse, dros_mse, sgdr_mse, dr_like_mse, mse_from.
  destruct t, q as [q|]; try (intros E; injection E as <-; reflexivity); intros E;
  destruct (importance_weights d ac pos ps) as [iw|e1] eqn:Ei; cbn [bind] in *; rewrite ?E; try reflexivity;
  try (cbv beta delta [ipw_round sgipw_round dr_round switch_round dros_round sgdr_round] in E; rewrite Ei in E; cbn [bind] in E; congruence);
  destruct (q_factual q ac pos) as [qf|] eqn:Eqf; cbn [bind] in *; rewrite ?E; try reflexivity;
  cbv beta delta [dr_round switch_round dros_round sgdr_round] in E; rewrite Ei in E; cbn [bind] in E; rewrite Eqf in E; cbn [bind] in E; congruence.
Qed.

Lemma tune_err argsort ppf o rw ac ps d q pos e : tn_lambdas o <> [] ->
  (forall h, base_round (tn_kind o) h rw ac ps d q pos = Err e) -> tune argsort ppf o rw ac ps d q pos = Err e.
Proof.
  intros Hne H. unfold tune, tune_mse, tune_slope. destruct (tn_lambdas o) as [|h ls]; [congruence|]. destruct (tn_method o).
  - cbn [mapM]. rewrite H. reflexivity.
  - cbn [fold_left bind]. rewrite (base_mse_err _ _ _ _ _ _ _ _ _ _ e) by auto. cbn [bind].
    assert (G : forall l, fold_left (fun acc h => d0 <- acc ;; s <- base_mse (tn_kind o) h rw ac ps d q pos (tn_bound o) (tn_delta o) ;; Ok (dict_set d0 h s)) l (Err e) = Err e).
    { induction l; auto. }
    rewrite G. reflexivity.
Qed.

(** The array of the evaluation policy is not degenerate: some round and some position, unless positions are given. *)
Definition not_empty (i : tinput) : Prop := ti_pos i <> None \/ (ti_dist i <> [] /\ dim2 (ti_dist i) <> 0%nat).

Lemma recheck i ps q : not_empty i ->
  check_ope_inputs (ti_dist i) (ti_pos i) (Some (ti_action i)) (Some (ti_reward i)) (Some ps) q None = Ok tt ->
  check_ope_inputs (ti_dist i) (Some (default_position (ti_dist i) (ti_pos i))) (Some (ti_action i)) (Some (ti_reward i)) (Some ps) q None = Ok tt.
Proof.
  intros Hne. destruct (ti_pos i) as [p|] eqn:Ep; [auto|]. destruct Hne as [?|[Hd Hz]]; [congruence|].
  unfold check_ope_inputs, default_position. destruct (raise_if (negb (allclose1 _)) ValueError); [|auto]. cbn [bind].
  destruct (Nat.ltb 1 (dim2 (ti_dist i))) eqn:E; [discriminate|]. cbn [raise_if bind].
  assert (Z0 : forall n, (0 < n)%nat -> zminl (zzeros n) = Ok 0%Z /\ zmaxl (zzeros n) = Ok 0%Z).
  { intros n Hn. destruct n; [lia|]. unfold zzeros. clear. cbn. induction n; cbn; auto. }
  assert (0 < length (ti_dist i))%nat by (destruct (ti_dist i); [congruence|cbn; lia]).
  unfold zzeros at 1. rewrite repeat_length, Nat.eqb_refl. cbn [negb raise_if bind].
  destruct (Z0 (length (ti_dist i))) as [-> ->]; [auto|]. cbn [bind]. change (Z.leb 0 0) with true. cbn [negb raise_if bind].
  replace (Z.leb (Z.of_nat (dim2 (ti_dist i))) 0) with false by (symmetry; apply Z.leb_gt; lia). cbn [raise_if bind]. auto.
Qed.

(** If the base estimator raises on these arguments at every hyper-parameter, the tuned estimator raises the same exception, for
    a value and for an interval, and the object is left as it was. *)
Theorem C142_refuses_with_the_base : forall argsort ppf o i e alpha n_boot choice,
  tn_lambdas o <> [] -> supports (tn_kind o) (tn_use_est o) -> not_empty i ->
  (forall h, base_value (tn_kind o) h (tn_use_est o) i = Err e) ->
  tuner_value argsort ppf o i = (o, Err e) /\ tuner_interval argsort ppf o i alpha n_boot choice = (o, Err e).
Proof.
  intros argsort ppf o i e alpha nb choice Hne Hs Hi H.
  assert (H' : forall h, (q <- (if needs_model (tn_kind o) then match ti_q i with Some q => Ok (Some q) | None => Err ValueError end else Ok None) ;;
   ps <- choose_pscore (tn_use_est o) (ti_ps i) (ti_eps i) ;;
   check_ope_inputs (ti_dist i) (ti_pos i) (Some (ti_action i)) (Some (ti_reward i)) (Some ps) q None ;;;
   rr <- base_round (tn_kind o) h (ti_reward i) (ti_action i) ps (ti_dist i) q (default_position (ti_dist i) (ti_pos i)) ;;
   Ok (nmean rr)) = Err e) by (intros h; rewrite <- base_value_split; auto). clear H.
  unfold tuner_value, tuner_interval, public_check.
  destruct (if needs_model (tn_kind o) then _ else _) as [q|e1] eqn:Eq; cbn [bind] in *; [|specialize (H' NaN); injection H' as ->; auto].
  destruct (choose_pscore (tn_use_est o) (ti_ps i) (ti_eps i)) as [ps|e1] eqn:Ep; cbn [bind] in *; [|specialize (H' NaN); injection H' as ->; auto].
  destruct (check_ope_inputs _ _ _ _ _ _ _) as [u|e1] eqn:Ec; cbn [bind] in *; [|specialize (H' NaN); injection H' as ->; auto].
  assert (R : forall h, base_round (tn_kind o) h (ti_reward i) (ti_action i) ps (ti_dist i) q (default_position (ti_dist i) (ti_pos i)) = Err e).
  { intros h. specialize (H' h). destruct (base_round _ _ _ _ _ _ _ _); [discriminate|]. cbn [bind] in H'. congruence. }
  destruct u. pose proof (recheck i ps q Hi Ec) as Ec'.
  assert (Ep' : forall b, (b = tn_use_est o \/ b = false) -> choose_pscore b (Some ps) (if forwards_estimated_pscore (tn_kind o) then ti_eps i else None) = Ok ps).
  { intros b Hb. unfold choose_pscore in *. destruct b; [|reflexivity]. destruct Hb as [Hb|Hb]; [|discriminate]. rewrite <- Hb in *.
    destruct (tn_kind o); cbn in *; try discriminate; auto. }
  assert (Eq' : (if needs_model (tn_kind o) then match q with Some q => Ok (Some q) | None => Err ValueError end else Ok None) = Ok q).
  { destruct (needs_model (tn_kind o)); [|auto]. destruct (ti_q i); [|discriminate]. injection Eq as <-. reflexivity. }
  unfold inner_input, ensure_tuned. cbn [ti_q ti_reward ti_action ti_dist ti_ps ti_pos ti_eps]. rewrite Ep' by auto. cbn [bind].
  destruct (tn_best o) as [h|].
  - rewrite base_value_split, base_interval_split. cbn [ti_q ti_reward ti_action ti_dist ti_ps ti_pos ti_eps]. rewrite Eq'. cbn [bind]. rewrite !Ep' by auto.
    cbn [bind]. rewrite Ec'. cbn [bind]. unfold default_position at 1 3. rewrite R. auto.
  - rewrite (tune_err argsort ppf o _ _ _ _ _ _ e) by auto. auto.
Qed.

(** Once a hyper-parameter is stored, a value request with any arguments is the base estimator's at that hyper-parameter. *)
Theorem C142_remembered_is_base : forall argsort ppf o i h,
  tn_best o = Some h -> supports (tn_kind o) (tn_use_est o) -> not_empty i ->
  tuner_value argsort ppf o i = (o, base_value (tn_kind o) h (tn_use_est o) i).
Proof.
  intros argsort ppf o i h Hb Hs Hi. rewrite base_value_split. unfold tuner_value, public_check.
  destruct (if needs_model (tn_kind o) then _ else _) as [q|e1] eqn:Eq; cbn [bind] in *; [|auto].
  destruct (choose_pscore (tn_use_est o) (ti_ps i) (ti_eps i)) as [ps|e1] eqn:Ep; cbn [bind] in *; [|auto].
  destruct (check_ope_inputs _ _ _ _ _ _ _) as [u|e1] eqn:Ec; cbn [bind] in *; [|auto].
  destruct u. pose proof (recheck i ps q Hi Ec) as Ec'.
  assert (Ep' : choose_pscore (tn_use_est o) (Some ps) (if forwards_estimated_pscore (tn_kind o) then ti_eps i else None) = Ok ps).
  { unfold choose_pscore in *. destruct (tn_use_est o); [|reflexivity]. destruct (tn_kind o); cbn in *; try discriminate; auto. }
  assert (Eq' : (if needs_model (tn_kind o) then match q with Some q => Ok (Some q) | None => Err ValueError end else Ok None) = Ok q).
  { destruct (needs_model (tn_kind o)); [|auto]. destruct (ti_q i); [|discriminate]. injection Eq as <-. reflexivity. }
  unfold inner_input, ensure_tuned. cbn [ti_q ti_reward ti_action ti_dist ti_ps ti_pos ti_eps]. rewrite Ep', Hb. cbn [bind].
  rewrite base_value_split. cbn [ti_q ti_reward ti_action ti_dist ti_ps ti_pos ti_eps]. rewrite Eq'. cbn [bind]. rewrite Ep'.
  cbn [bind]. rewrite Ec'. reflexivity.
Qed.
(** The hypotheses can be met: the log, object and call of C29, first asked for an interval, then for a value. *)
Example C141_case : forall argsort ppf choice, exists o lam,
  make_tuner T_IPW (map lam_num [Some 1; Some 10]) Mse false (1/20) false = Ok o /\
  let c := mkCall ex_t1 (Some (pscores ex_t1)) None None in
  good_call false c /\ In lam [Some 1; Some 10] /\
  session argsort ppf o [ask c (Interval (1/20) 100 choice); ask c Value] = [answer_at T_IPW lam c (Interval (1/20) 100 choice); answer_at T_IPW lam c Value].
Proof.
  intros argsort ppf choice. destruct ex_tuner as (o & E). exists o.
  assert (G : good_call false (mkCall ex_t1 (Some (pscores ex_t1)) None None)).
  { split; [apply ex_t1_accepted|]. split; [apply ex_t1_policy|]. split; [right; simpl; auto|reflexivity]. }
  destruct (C141_one_hyperparameter argsort ppf T_IPW [Some 1; Some 10] Mse false (1/20) false o) with (c := mkCall ex_t1 (Some (pscores ex_t1)) None None) as (lam & Hl & H); auto.
  - simpl. auto.
  - simpl. auto.
  - simpl. discriminate.
  - exists lam. split; [auto|]. split; [auto|]. split; [auto|].
    apply (H (Interval (1/20) 100 choice) [(mkCall ex_t1 (Some (pscores ex_t1)) None None, Value)]). constructor; [exact G|constructor].
Qed.

(** A reward model of the wrong shape is refused before anything is stored. *)
Example C142_case : forall argsort ppf alpha n_boot choice h r a q p,
  let o := mkTuner T_DR [Fin 1; Fin 10] Mse false (1/20) false None in
  let i := mkTinput r a [[[Fin (1/2)]; [Fin (1/2)]]] (Some [q]) (Some p) None None in
  length q <> 2%nat ->
  base_value T_DR h false i = Err ValueError /\
  tuner_value argsort ppf o i = (o, Err ValueError) /\ tuner_interval argsort ppf o i alpha n_boot choice = (o, Err ValueError).
Proof.
  intros argsort ppf alpha nb choice h r a q p o i Hq.
  assert (H : forall h, base_value T_DR h false i = Err ValueError).
  { intros h'. rewrite base_value_split. cbn [needs_model ti_q i bind choose_pscore ti_ps ti_eps ti_dist ti_pos]. unfold check_ope_inputs.
    destruct (negb (allclose1 _)); [reflexivity|]. cbn [raise_if bind].
    replace (shape_eqb [q] [[[Fin (1/2)]; [Fin (1/2)]]]) with false; [reflexivity|].
    symmetry. unfold shape_eqb. cbn. destruct (Nat.eqb_spec (length q) 2); [congruence|reflexivity]. }
  split; [apply H|]. apply (C142_refuses_with_the_base argsort ppf o i ValueError alpha nb choice); [discriminate|exact I| |exact H].
  right. cbn. split; discriminate.
Qed.

Print Assumptions C141_one_hyperparameter.
Print Assumptions C123_tuned_floats.
Print Assumptions C142_refuses_with_the_base.
Print Assumptions C142_remembered_is_base.
