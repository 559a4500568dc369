(** * P_CrossFit: doubly robust estimation with a reward model fitted on the same log (C140). *)

From Coq Require Import Reals List ZArith Bool Lia Lra.
From Verif Require Import Num NpList M_Utils M_Estimators M_Reg S_Base S_Prob S_Reg S_Estimators S_Env
  L_Num L_Base L_Prob L_Estimators L_EstProps L_Unbiased L_Examples L_Conc P_Reg.
Import ListNotations.
Open Scope R_scope.

(** Redrawing one round does not change an expectation. *)
Lemma expect_redraw {A} (D : nat -> dist A) n : (forall i, (i < n)%nat -> is_dist (D i)) -> forall i H, (i < n)%nat ->
  expect (dprod n D) H = expect (dprod n D) (fun o => expect (D i) (fun y => H (set_nth o i y))).
Proof.
  intros HD. assert (SN : forall (l : list A) y z, set_nth (l ++ [z]) (length l) y = l ++ [y]) by (induction l; intros; cbn; f_equal; auto).
  assert (SI : forall (l : list A) y z k, (k < length l)%nat -> set_nth (l ++ [z]) k y = set_nth l k y ++ [z]).
  { induction l as [|x l IH]; intros y z k Hk; [cbn in Hk; lia|]. destruct k; cbn; [reflexivity|]. f_equal. apply IH. cbn in Hk. lia. }
  induction n as [|n IH]; intros i H Hi; [lia|]. cbn [dprod]. rewrite !expect_dbind.
  assert (HDn : is_dist (D n)) by (apply HD; lia).
  destruct (Nat.eq_dec i n) as [->|Hne].
  - apply expect_ext. intros o p Ho Hp. destruct (In_dprod _ _ _ _ Ho Hp) as [Hl _]. rewrite !expect_dmap. symmetry.
    transitivity (expect (D n) (fun _ => expect (D n) (fun y => H (o ++ [y])))); [|apply expect_const; auto].
    apply expect_ext_all. intros x. apply expect_ext_all. intros y. rewrite <- Hl, SN. reflexivity.
  - rewrite (IH ltac:(intros; apply HD; lia) i _ ltac:(lia)). apply expect_ext. intros o p Ho Hp. destruct (In_dprod _ _ _ _ Ho Hp) as [Hl _].
    rewrite expect_dmap.
    rewrite (expect_ext_all (D n) _ (fun x => expect (D i) (fun y => H (set_nth o i y ++ [x])))) by (intros x; apply expect_ext_all; intros y; rewrite SI by lia; reflexivity).
    rewrite expect_swap. apply expect_ext_all. intros y. rewrite expect_dmap. reflexivity.
Qed.

(** ** Statement *)

(** The contexts of a logged data set, one row per round. *)
Definition contexts {X} (o : list (X * nat * R)) : list X := map (fun y => fst (fst y)) o.

(** [RegressionModel.fit_predict] on the log, then [DoublyRobust.estimate_policy_value] with the predictions. *)
Definition fit_then_dr {M} (rfit : M -> list (list num) -> list num -> option (list num) -> res M) (rpred : M -> list (list num) -> res (list num))
    (e : benv (list num)) (ac : nat -> list num) (meth : fitting) (models : list M) (n_folds : Z) (fold : nat -> nat)
    (o : list (list num * nat * R)) : res num :=
  let l := log_of e (ev_pb e) (fun _ _ _ => 0) o in
  mq <- reg_fit_predict rfit rpred (mkReg (ev_K e) (ev_L e) (tab (ev_K e) ac) meth) models (contexts o) (actions l) (rewards l)
          (Some (pscores l)) (Some (positions l)) (Some (policy l)) n_folds fold ;;
  dr_value PInf false (rewards l) (actions l) (policy l) (snd mq) (Some (pscores l)) (Some (positions l)) None.

Section Fit.
  Context {M : Type} (rfit : M -> list (list num) -> list num -> option (list num) -> res M) (rpred : M -> list (list num) -> res (list num))
    (train : list (list num) -> list num -> option (list num) -> M) (f : M -> list num -> R).
  Hypothesis HP : plain_learner rfit rpred (fun X y w => Ok (train X y w)) (fun m x => Fin (f m x)).
  Variables (e : benv (list num)) (ac : nat -> list num) (meth : fitting).
  Hypothesis He : env_ok e.

  Definition rlog_of (o : list (list num * nat * R)) : rlog :=
    S_Reg.mkLog (ev_n e) (fun i => match nth_error o i with Some (x, _, _) => x | None => [] end)
      (fun i => match nth_error o i with Some (_, a, _) => a | None => 0%nat end)
      (fun i => Fin (match nth_error o i with Some (_, _, r) => r | None => 0 end))
      (fun i => match nth_error o i with Some (x, a, _) => ev_pb e x (ev_pos e i) a | None => 0 end)
      (ev_pos e) (fun i a s => match nth_error o i with Some (x, _, _) => ev_pe e x a s | None => 0 end).

  (** The log with an estimate of the reward that may differ from round to round. *)
  Definition log_with (qh : nat -> list num -> nat -> nat -> R) (o : list (list num * nat * R)) : blog :=
    let l := log_of e (ev_pb e) (fun _ _ _ => 0) o in
    {| lg_n := lg_n l; lg_K := lg_K l; lg_L := lg_L l; lg_r := lg_r l; lg_a := lg_a l; lg_pos := lg_pos l; lg_p := lg_p l; lg_pi := lg_pi l;
       lg_q := fun i a s => match nth_error o i with Some (x, _, _) => qh i x a s | None => 0 end |}.

  Lemma rlog_of_ok o p : In (o, p) (log_dist e) -> p <> 0 -> rlog_ok (ev_K e) (ev_L e) (rlog_of o).
  Proof.
    intros Ho Hp. pose proof (accepted_log e He (ev_pb e) (fun _ _ _ => 0) o p ltac:(auto) Ho Hp) as A. destruct A as [A1 A2 A3 A4 _].
    cbn [lg_n lg_a lg_p lg_pos log_of lg_K lg_L] in *. constructor; cbn [rlog_of rl_n rl_a rl_p rl_pos rl_pi]; auto.
    intros i s Hi Hs. destruct (In_dprod_opt _ _ _ _ Ho Hp i Hi) as ([[x a] r] & q & E & _). rewrite E. apply He.
  Qed.
  Lemma contexts_tab o : length o = ev_n e -> contexts o = tab (ev_n e) (rl_x (rlog_of o)).
  Proof.
    intros Hl. rewrite <- Hl. unfold contexts, rlog_of. cbn [rl_x]. clear. unfold tab.
    induction o as [|[[x a] r] o IH]; [reflexivity|]. cbn [map length seq]. f_equal. rewrite IH, <- seq_shift, map_map. reflexivity.
  Qed.

  Lemma L_pos : (0 < ev_L e)%nat.
  Proof. pose proof (eo_pos e He 0%nat (eo_n e He)). lia. Qed.

  Lemma cell3_model qh o : length o = ev_n e ->
    tab3 (ev_n e) (ev_K e) (ev_L e) (fun i a s => Fin (qh i (rl_x (rlog_of o) i) a s)) = model (log_with qh o).
  Proof.
    intros Hl. unfold model, tab3F, tab3. cbn [log_with lg_n lg_K lg_L lg_q log_of]. apply tab_ext. intros i Hi. apply tab_ext. intros a Ha. apply tab_ext. intros s Hs.
    cbn [rlog_of rl_x]. destruct (nth_error o i) as [[[x b] r]|] eqn:E; [reflexivity|]. apply nth_error_None in E. lia.
  Qed.

  Lemma run_dr qh o p : In (o, p) (log_dist e) -> p <> 0 ->
    dr_value PInf false (rewards (log_with qh o)) (actions (log_with qh o)) (policy (log_with qh o)) (model (log_with qh o)) (Some (pscores (log_with qh o)))
      (Some (positions (log_with qh o))) None = Ok (Fin (spec_dr None (log_with qh o))).
  Proof.
    intros Ho Hp. apply (dr_value_ok None false (log_with qh o)); [|left; reflexivity|reflexivity].
    pose proof (accepted_log e He (ev_pb e) (fun _ _ _ => 0) o p ltac:(auto) Ho Hp) as [A1 A2 A3 A4 A5]. constructor; auto.
  Qed.

  Lemma dr_rounds qh o p : In (o, p) (log_dist e) -> p <> 0 ->
    spec_dr None (log_with qh o) = avg (ev_n e) (fun i => match nth_error o i with
      | Some (x, a, r) => sumn (ev_K e) (fun b => qh i x b (ev_pos e i) * ev_pe e x b (ev_pos e i))
                          + ev_pe e x a (ev_pos e i) / ev_pb e x (ev_pos e i) a * (r - qh i x a (ev_pos e i))
      | None => 0 end).
  Proof.
    intros Ho Hp. unfold spec_dr. rewrite <- dr_sum. cbn [log_with lg_n log_of]. apply avg_ext. intros i Hi.
    destruct (In_dprod_opt _ _ _ _ Ho Hp i Hi) as ([[x a] r] & q & E & _). unfold q_pi, weight, q_at, clip. cbn [log_with lg_K lg_q lg_pi lg_pos lg_r lg_a lg_p log_of]. rewrite E.
    rewrite (eo_pe1 e He). field. intros Z. pose proof (In_round e He i). destruct (accepted_log e He (ev_pb e) (fun _ _ _ => 0) o p ltac:(auto) Ho Hp) as [_ _ _ A4 _].
    specialize (A4 i Hi). cbn [lg_p log_of] in A4. rewrite E, Z in A4. lra.
  Qed.

  (** One round with a fixed reward model. *)
  Lemma round_mean (Hcs : common_support e) i (qh : list num -> nat -> nat -> R) :
    expect (round_dist e i) (fun y => let '(x, a, r) := y in
       sumn (ev_K e) (fun b => qh x b (ev_pos e i) * ev_pe e x b (ev_pos e i)) + ev_pe e x a (ev_pos e i) / ev_pb e x (ev_pos e i) a * (r - qh x a (ev_pos e i)))
    = expect (ev_ctx e i) (fun x => sumn (ev_K e) (fun a => ev_pe e x a (ev_pos e i) * q_true e x (ev_pos e i) a)).
  Proof.
    rewrite (L_Unbiased.expect_round e i _ (fun x a r =>
       sumn (ev_K e) (fun b => qh x b (ev_pos e i) * ev_pe e x b (ev_pos e i)) + ev_pe e x a (ev_pos e i) / ev_pb e x (ev_pos e i) a * (r - qh x a (ev_pos e i)))) by reflexivity.
    apply expect_ext_all. intros x. set (Q := sumn (ev_K e) (fun b => qh x b (ev_pos e i) * ev_pe e x b (ev_pos e i))).
    rewrite (sumn_ext _ _ (fun a => Q * ev_pb e x (ev_pos e i) a
        + (ev_pe e x a (ev_pos e i) * q_true e x (ev_pos e i) a - qh x a (ev_pos e i) * ev_pe e x a (ev_pos e i)))).
    - rewrite sumn_plus, sumn_scal, (eo_pb1 e He), sumn_minus. fold Q. lra.
    - intros a Ha. rewrite expect_plus, expect_const by (apply He). rewrite expect_scal, expect_minus, expect_const by (apply He). fold (q_true e x (ev_pos e i) a).
      destruct (Rle_lt_or_eq_dec 0 _ (eo_pe0 e He x a (ev_pos e i) Ha)) as [Hpos|Hz].
      + pose proof (Hcs x a (ev_pos e i) Ha Hpos). field. lra.
      + rewrite <- Hz. unfold Rdiv. ring.
  Qed.

  (** The model of fold [j] and position [s]. *)
  Definition fold_model (fold : nat -> nat) (o : list (list num * nat * R)) (j s : nat) : M :=
    let idx := outside (ev_n e) fold j in train (train_X ac (rlog_of o) idx s) (train_y (rlog_of o) idx s) (train_w meth (rlog_of o) idx s).

  Lemma nth_error_set {A} (o : list A) i j y : i <> j -> nth_error (set_nth o i y) j = nth_error o j.
  Proof. revert i j. induction o as [|x o IH]; intros [|i] [|j] H; cbn; auto; try lia. Qed.
  Lemma nth_error_set_eq {A} (o : list A) i y : (i < length o)%nat -> nth_error (set_nth o i y) i = Some y.
  Proof. revert i. induction o as [|x o IH]; intros [|i] H; cbn in *; auto; try lia. apply IH. lia. Qed.

  Lemma fold_model_own fold o i s y : fold_model fold (set_nth o i y) (fold i) s = fold_model fold o (fold i) s.
  Proof.
    unfold fold_model. destruct (train_data_ext ac meth (rlog_of o) (rlog_of (set_nth o i y)) (outside (ev_n e) fold (fold i)) s) as (_ & -> & -> & ->); auto.
    intros j Hj. apply outside_in in Hj as [Hjn Hjf]. assert (i <> j) by congruence. cbn [rlog_of rl_x rl_a rl_r rl_p rl_pos rl_pi]. rewrite nth_error_set by auto. repeat split.
  Qed.
End Fit.

(** With cross-fitting the estimate is unbiased for every learning algorithm: [k >= 2] folds, and training rounds for every
    position outside every fold. *)
Theorem C140_cross_fitting_unbiased : forall M rfit rpred train (f : M -> list num -> R) (e : benv (list num)) ac meth models k fold,
  plain_learner rfit rpred (fun X y w => Ok (train X y w)) (fun m x => Fin (f m x)) ->
  env_ok e -> common_support e -> length models = ev_L e -> (2 <= k)%nat -> is_partition (ev_n e) k fold ->
  (forall j s, (j < k)%nat -> (s < ev_L e)%nat -> exists i, (i < ev_n e)%nat /\ fold i <> j /\ ev_pos e i = s) ->
  expects (log_dist e) (fit_then_dr rfit rpred e ac meth models (Z.of_nat k) fold) (policy_value e).
Proof.
  intros M rfit rpred train f e ac meth models k fold HP He Hcs Hm Hk Hpart Hcov.
  set (qh := fun o i (x : list num) (a s : nat) => f (fold_model train e ac meth fold o (fold i) s) (x ++ ac a)).
  exists (fun o => spec_dr None (log_with e (qh o) o)). split.
  - intros o p Ho Hp. unfold fit_then_dr. cbv zeta. assert (Hlen : length o = ev_n e) by apply (In_dprod _ _ _ _ Ho Hp).
    rewrite (contexts_tab e o Hlen).
    assert (R : reg_fit_predict rfit rpred (mkReg (ev_K e) (ev_L e) (tab (ev_K e) ac) meth) models (tab (ev_n e) (rl_x (rlog_of e o)))
      (tabZ (ev_n e) (rl_a (rlog_of e o))) (tab (ev_n e) (rl_r (rlog_of e o))) (Some (tabF (ev_n e) (rl_p (rlog_of e o))))
      (Some (tabZ (ev_n e) (ev_pos e))) (Some (tab3F (ev_n e) (ev_K e) (ev_L e) (rl_pi (rlog_of e o)))) (Z.of_nat k) fold =
      Ok (tab (ev_L e) (fold_model train e ac meth fold o (k - 1)), model (log_with e (qh o) o))).
    { apply (C54_out_of_fold rfit rpred (fun X y w => Ok (train X y w)) (fun m x => Fin (f m x)) HP (ev_K e) (ev_L e) ac meth (rlog_of e o) models).
      - eapply rlog_of_ok; eauto.
      - apply L_pos; auto.
      - auto.
      - left. reflexivity.
      - left. reflexivity.
      - left. reflexivity.
      - auto.
      - auto.
      - exists (fold_model train e ac meth fold o). split; [|split; [reflexivity|]].
        + intros j s Hj Hs. split; [|reflexivity]. destruct (Hcov j s Hj Hs) as (i & Hi & Hf & Hpos). intros Z.
          assert (I : In i (rounds_of (rlog_of e o) (outside (rl_n (rlog_of e o)) fold j) s)).
          { unfold rounds_of. apply filter_In. split; [apply outside_in; auto|]. apply Nat.eqb_eq. auto. }
          rewrite Z in I. destruct I.
        + rewrite <- (cell3_model e (qh o) o Hlen). reflexivity. }
    assert (R' : reg_fit_predict rfit rpred (mkReg (ev_K e) (ev_L e) (tab (ev_K e) ac) meth) models (tab (ev_n e) (rl_x (rlog_of e o)))
      (actions (log_of e (ev_pb e) (fun _ _ _ => 0) o)) (rewards (log_of e (ev_pb e) (fun _ _ _ => 0) o)) (Some (pscores (log_of e (ev_pb e) (fun _ _ _ => 0) o)))
      (Some (positions (log_of e (ev_pb e) (fun _ _ _ => 0) o))) (Some (policy (log_of e (ev_pb e) (fun _ _ _ => 0) o))) (Z.of_nat k) fold =
      Ok (tab (ev_L e) (fold_model train e ac meth fold o (k - 1)), model (log_with e (qh o) o))) by exact R.
    rewrite R'. cbn [bind snd]. apply (run_dr e He (qh o) o p Ho Hp).
  - rewrite (expect_ext _ _ (fun o => avg (ev_n e) (fun i => match nth_error o i with
      | Some (x, a, r) => sumn (ev_K e) (fun b => qh o i x b (ev_pos e i) * ev_pe e x b (ev_pos e i))
                          + ev_pe e x a (ev_pos e i) / ev_pb e x (ev_pos e i) a * (r - qh o i x a (ev_pos e i))
      | None => 0 end))) by (intros o p Ho Hp; eapply dr_rounds; eauto).
    unfold policy_value, avg, Rdiv. rewrite expect_scal_r, expect_sumn. f_equal. apply sumn_ext. intros i Hi.
    unfold log_dist. rewrite (expect_redraw (round_dist e) (ev_n e) ltac:(intros; apply is_dist_round; auto) i _ Hi).
    rewrite (expect_ext _ _ (fun _ => expect (ev_ctx e i) (fun x => sumn (ev_K e) (fun a => ev_pe e x a (ev_pos e i) * q_true e x (ev_pos e i) a)))).
    + apply expect_const. apply is_dist_dprod. intros; apply is_dist_round; auto.
    + intros o p Ho Hp. destruct (In_dprod _ _ _ _ Ho Hp) as [Hl _].
      rewrite <- (round_mean e He Hcs i (qh o i)). apply expect_ext_all. intros [[x a] r].
      rewrite nth_error_set_eq by lia. unfold qh. rewrite fold_model_own. reflexivity.
Qed.

(** Fitting and predicting on the same rounds ([n_folds = 1]) can be biased by a fixed amount for every number of rounds: a
    model that reproduces the logged rewards turns doubly robust into the mean logged reward. *)
Definition own_env (n : nat) : benv (list num) := {|
  ev_n := n; ev_K := 2; ev_L := 1; ev_pos := fun _ => 0%nat; ev_ctx := fun i => [([Fin (INR i)], 1)];
  ev_pb := fun _ _ _ => 1 / 2;
  ev_pe := fun _ a _ => if Nat.eqb a 1 then 1 else 0;
  ev_rd := fun _ _ a => [(INR a, 1)] |}.

(** Nearest neighbour on the context: the reward of the first training row with the same context. *)
Fixpoint lookup_row (X : list (list num)) (y : list num) (x : list num) : R :=
  match X, y with
  | r :: X, v :: y => if num_dec (hd NaN r) (hd NaN x) then match v with Fin q => q | _ => 0 end else lookup_row X y x
  | _, _ => 0
  end.
Definition memo_fit (_ : list (list num) * list num) (X : list (list num)) (y : list num) (_ : option (list num)) : res (list (list num) * list num) := Ok (X, y).
Definition memo_pred (m : list (list num) * list num) (X : list (list num)) : res (list num) := Ok (map (fun x => Fin (lookup_row (fst m) (snd m) x)) X).

Lemma memo_plain : plain_learner memo_fit memo_pred (fun X y _ => Ok (X, y)) (fun m x => Fin (lookup_row (fst m) (snd m) x)).
Proof. split; reflexivity. Qed.

Lemma own_env_ok n : (0 < n)%nat -> env_ok (own_env n) /\ common_support (own_env n).
Proof.
  intros Hn. assert (D : forall A (a : A), is_dist [(a, 1)]) by (intros A a; split; [intros b p [[= <- <-]|[]]; lra|cbn; lra]).
  split.
  - constructor; cbn [own_env ev_n ev_K ev_L ev_pos ev_ctx ev_pb ev_pe ev_rd]; auto; intros.
    + lra.
    + cbn. lra.
    + destruct (Nat.eqb a 1); lra.
    + cbn. lra.
  - intros x a s Ha _. cbn. lra.
Qed.

Lemma lookup_own (ac : nat -> list num) (a : nat -> nat) (x : nat -> list num) (r : nat -> R) idx i b :
  (forall j, In j idx -> x j = [Fin (INR j)]) -> In i idx ->
  lookup_row (map (fun j => x j ++ ac (a j)) idx) (map (fun j => Fin (r j)) idx) (x i ++ b) = r i.
Proof.
  intros Hx Hi. rewrite (Hx i Hi). induction idx as [|j idx IH]; [destruct Hi|]. cbn [map lookup_row].
  rewrite (Hx j) by (left; auto). cbn [app hd]. destruct (num_dec (Fin (INR j)) (Fin (INR i))) as [E|N].
  - injection E as E. apply INR_eq in E. subst. reflexivity.
  - apply IH; [intros; apply Hx; right; auto|]. destruct Hi as [->|Hi]; [congruence|auto].
Qed.

Theorem C140_in_sample_biased : forall n ac meth m0 fold, (0 < n)%nat ->
  env_ok (own_env n) /\ common_support (own_env n) /\ policy_value (own_env n) = 1 /\
  expects (log_dist (own_env n)) (fit_then_dr memo_fit memo_pred (own_env n) ac meth [m0] 1 fold) (1 / 2).
Proof.
  intros n ac meth m0 fold Hn. destruct (own_env_ok n Hn) as [He Hcs]. split; [auto|split; [auto|split]].
  { unfold policy_value. cbn [own_env ev_n ev_K ev_pos ev_ctx ev_pe].
    rewrite (avg_ext _ _ (fun _ => 1)); [apply avg_const; auto|]. intros i Hi. unfold q_true. cbn. lra. }
  set (e := own_env n) in *.
  set (rw := fun (o : list (list num * nat * R)) i => match nth_error o i with Some (_, _, r) => r | None => 0 end).
  exists (fun o => spec_dr None (log_with e (fun i _ _ _ => rw o i) o)). split.
  - intros o p Ho Hp. unfold fit_then_dr. cbv zeta. assert (Hlen : length o = ev_n e) by apply (In_dprod _ _ _ _ Ho Hp).
    rewrite (contexts_tab e o Hlen).
    assert (Hx : forall j, (j < n)%nat -> rl_x (rlog_of e o) j = [Fin (INR j)]).
    { intros j Hj. cbn [rlog_of rl_x]. destruct (In_dprod_opt _ _ _ _ Ho Hp j Hj) as (y & q & E & I & _). rewrite E.
      unfold round_dist in I. apply In_dbind in I as (x & p1 & p2 & I1 & I2 & _). cbn in I1. destruct I1 as [[= <- <-]|[]].
      apply In_dbind in I2 as (a & ? & ? & _ & I2 & _). apply In_dmap in I2 as (r & -> & _). reflexivity. }
    assert (R : reg_fit_predict memo_fit memo_pred (mkReg (ev_K e) (ev_L e) (tab (ev_K e) ac) meth) [m0] (tab (ev_n e) (rl_x (rlog_of e o)))
      (tabZ (ev_n e) (rl_a (rlog_of e o))) (tab (ev_n e) (rl_r (rlog_of e o))) (Some (tabF (ev_n e) (rl_p (rlog_of e o))))
      (Some (tabZ (ev_n e) (ev_pos e))) (Some (tab3F (ev_n e) (ev_K e) (ev_L e) (rl_pi (rlog_of e o)))) 1 fold =
      Ok (tab (ev_L e) (fun s => (train_X ac (rlog_of e o) (all_rounds n) s, train_y (rlog_of e o) (all_rounds n) s)), model (log_with e (fun i _ _ _ => rw o i) o))).
    { apply (C54_single_fold memo_fit memo_pred _ _ memo_plain (ev_K e) (ev_L e) ac meth (rlog_of e o) [m0]).
      - eapply rlog_of_ok; eauto.
      - cbn. lia.
      - reflexivity.
      - left. reflexivity.
      - left. reflexivity.
      - left. reflexivity.
      - eexists. split; [|split; [reflexivity|]].
        + intros s Hs. cbn in Hs. split; [|reflexivity]. unfold rounds_of, all_rounds. cbn [rlog_of rl_n rl_pos]. destruct s; [|lia]. subst e. cbn. destruct n; [lia|]. cbn. discriminate.
        + rewrite <- (cell3_model e (fun i _ _ _ => rw o i) o Hlen). unfold tab3. apply tab_ext. intros i Hi. apply tab_ext. intros a Ha. apply tab_ext. intros s Hs. f_equal. symmetry. cbn [fst snd]. unfold row_of, train_X, train_y.
          cbn in Hi, Hs. assert (s = 0)%nat as -> by lia.
          apply (lookup_own ac (rl_a (rlog_of e o)) (rl_x (rlog_of e o)) (rw o)).
          * intros j Hj. apply Hx. unfold rounds_of, all_rounds in Hj. apply filter_In in Hj as [Hj _]. apply in_seq in Hj. lia.
          * unfold rounds_of, all_rounds. apply filter_In. split; [apply in_seq; lia|reflexivity]. }
    assert (R' : reg_fit_predict memo_fit memo_pred (mkReg (ev_K e) (ev_L e) (tab (ev_K e) ac) meth) [m0] (tab (ev_n e) (rl_x (rlog_of e o)))
      (actions (log_of e (ev_pb e) (fun _ _ _ => 0) o)) (rewards (log_of e (ev_pb e) (fun _ _ _ => 0) o)) (Some (pscores (log_of e (ev_pb e) (fun _ _ _ => 0) o)))
      (Some (positions (log_of e (ev_pb e) (fun _ _ _ => 0) o))) (Some (policy (log_of e (ev_pb e) (fun _ _ _ => 0) o))) 1 fold =
      Ok (tab (ev_L e) (fun s => (train_X ac (rlog_of e o) (all_rounds n) s, train_y (rlog_of e o) (all_rounds n) s)), model (log_with e (fun i _ _ _ => rw o i) o))) by exact R.
    rewrite R'. cbn [bind snd]. apply (run_dr e He (fun i _ _ _ => rw o i) o p Ho Hp).
  - rewrite (expect_ext _ _ (fun o => avg (ev_n e) (fun i => rw o i))).
    + unfold avg, Rdiv. rewrite expect_scal_r, expect_sumn.
      rewrite (sumn_ext _ _ (fun _ => 1 / 2)).
      * rewrite sumn_const. cbn [e own_env ev_n]. apply lt_0_INR in Hn. field. lra.
      * intros i Hi. unfold log_dist. rewrite (expect_redraw (round_dist e) (ev_n e) ltac:(intros; apply is_dist_round; auto) i _ Hi).
        rewrite (expect_ext _ _ (fun _ => 1 / 2)).
        -- apply expect_const. apply is_dist_dprod. intros; apply is_dist_round; auto.
        -- intros o p Ho Hp. destruct (In_dprod _ _ _ _ Ho Hp) as [Hl _].
           rewrite (L_Unbiased.expect_round e i _ (fun x a r => r)).
           ++ subst e. cbn. lra.
           ++ intros x a r. unfold rw. rewrite nth_error_set_eq by lia. reflexivity.
    + intros o p Ho Hp. rewrite (dr_rounds e He _ o p Ho Hp). apply avg_ext. intros i Hi.
      destruct (In_dprod_opt _ _ _ _ Ho Hp i Hi) as ([[x a] r] & q & E & _). unfold rw. rewrite E. subst e. cbn. lra.
Qed.

(** The same environment and the same memorising model, with two folds of two rounds each: unbiased. *)
Example C140_case : forall ac meth m0,
  expects (log_dist (own_env 4)) (fit_then_dr memo_fit memo_pred (own_env 4) ac meth [m0] 2 (fun i => if Nat.ltb i 2 then 0%nat else 1%nat)) 1.
Proof.
  intros ac meth m0. destruct (C140_in_sample_biased 4 ac meth m0 (fun i => i) ltac:(lia)) as (He & Hcs & <- & _).
  apply (C140_cross_fitting_unbiased _ memo_fit memo_pred (fun X y _ => (X, y)) (fun m x => lookup_row (fst m) (snd m) x) (own_env 4) ac meth [m0] 2).
  - split; reflexivity.
  - auto.
  - auto.
  - reflexivity.
  - lia.
  - split; [intros i Hi; destruct (Nat.ltb i 2); lia|]. intros j Hj. exists (2 * j)%nat. cbn. destruct j as [|[|]]; cbn; lia.
  - intros j s Hj Hs. cbn in Hs. exists (if Nat.eqb j 0 then 2%nat else 0%nat). cbn. destruct j as [|[|]]; cbn; lia.
Qed.

Print Assumptions C140_cross_fitting_unbiased.
Print Assumptions C140_in_sample_biased.
