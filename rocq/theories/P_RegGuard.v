(** * P_RegGuard: reward models and weight estimators reject malformed logs and policies before training (C177). *)

From Coq Require Import Reals List ZArith Lia Lra Bool.
From Verif Require Import Num NpList M_Utils M_Slate M_Multi M_Feedback M_Offline M_Reg S_Base S_Estimators S_Slate S_Reg L_Num L_Base
  L_Estimators L_Utils L_Slate L_Multi L_Offline L_Reg L_Weights P_Sim P_Reg.
Import ListNotations.
Open Scope R_scope.

(** ** Specification *)

(** A numpy array of shape (n, K, L). *)
Definition has_shape (d : list (list (list num))) (n K L : nat) : Prop :=
  length d = n /\ Forall (fun row => length row = K /\ Forall (fun cell => length cell = L) row) d.
(** Every (round, position) slice sums to one up to [np.allclose]'s tolerance; in particular no sum is nan or infinite. *)
Definition sums_to_one (d : list (list (list num))) (L : nat) : Prop :=
  forall row j, In row d -> (j < L)%nat ->
    exists v, nsum (map (fun cell => nth j cell NaN) row) = Fin v /\ Rabs (v - 1) <= 1 / 100000000 + 1 / 100000.
(** The log: a non-empty one, one context and one action per round, actions name one of the [A] action contexts. *)
Definition log_ok (A : nat) (context : list (list num)) (action : list Z) : Prop :=
  action <> [] /\ length context = length action /\ Forall (fun a => (0 <= a < Z.of_nat A)%Z) action.
(** Positions: when given, one per round, and all in [0, L) unless [L = 1]. *)
Definition positions_ok (L : nat) (action : list Z) (position : option (list Z)) : Prop :=
  forall q, position = Some q -> length q = length action /\ Forall (fun p => (0 <= p)%Z /\ (L <> 1%nat -> (p < Z.of_nat L)%Z)) q.
Definition rewards_ok (action : list Z) (reward : list num) (pscore : option (list num)) : Prop :=
  length reward = length action /\ forall p, pscore = Some p -> length p = length action /\ Forall (fun x => nle x (Fin 0) = false) p.

(** ** Lemmas *)
Lemma feedback_cases A context action reward position pscore :
  check_bandit_feedback_inputs context action reward None position pscore (Some A) = Err ValueError \/
  (check_bandit_feedback_inputs context action reward None position pscore (Some A) = Ok tt /\
   log_ok (length A) context action /\ rewards_ok action reward pscore /\
   forall q, position = Some q -> length q = length action /\ Forall (fun p => (0 <= p)%Z) q).
Proof.
  destruct (C94_feedback_validator context action reward None position pscore (Some A)) as [[E H]|[E _]]; [right|left; exact E].
  destruct H as (H1 & H2 & [Hne _] & _ & H4 & H5 & [_ H6]). split; [exact E|]. split; [|split].
  - split; auto.
  - split; auto. intros p ->. exact H4.
  - intros q ->. exact H5.
Qed.

Lemma fit_position_cases L action position : (forall q, position = Some q -> length q = length action /\ Forall (fun p => (0 <= p)%Z) q) ->
  fit_position L action position = Err ValueError \/ (exists pos, fit_position L action position = Ok pos) /\ positions_ok L action position.
Proof.
  intros H. unfold fit_position. destruct position as [q|].
  2:{ right. split; [eauto|]. intros q E. discriminate. }
  destruct (H q eq_refl) as [Hl Hq]. destruct (Nat.eqb_spec L 1) as [->|HL].
  - right. split; [eauto|]. intros q' E. injection E as <-. split; auto. eapply Forall_impl; [|exact Hq]. simpl. intros p Hp. split; auto. congruence.
  - destruct (zmaxl q) as [hi|e] eqn:E; simpl; [|left; destruct q; simpl in E; congruence].
    destruct (Z.leb_spec (Z.of_nat L) hi); simpl; [left; reflexivity|right]. split; [eauto|].
    intros q' E'. injection E' as <-. split; auto. rewrite Forall_forall in *. intros p Hp. split; auto. intros _. pose proof (zmaxl_ge _ _ _ E Hp). lia.
Qed.

Lemma shape_is_iff d n K L n' K' L' : (0 < n)%nat -> (0 < K)%nat -> has_shape d n' K' L' ->
  shape_is d n K L = true <-> (n' = n /\ K' = K /\ L' = L).
Proof.
  intros Hn HK [Hl Hd]. unfold shape_is. rewrite !andb_true_iff, !Nat.eqb_eq, Hl.
  destruct d as [|row d]; [simpl in *; split; intros H; lia|]. inversion_clear Hd as [|? ? [H1 H2] _]. simpl. rewrite H1.
  destruct row as [|cell row]; [simpl in *; split; intros H; lia|]. inversion_clear H2 as [|? ? H3 _]. rewrite H3. tauto.
Qed.

Lemma dim2_shape d n K L : (0 < n)%nat -> (0 < K)%nat -> has_shape d n K L -> dim2 d = L.
Proof.
  intros Hn HK [Hl Hd]. destruct d as [|row d]; [simpl in *; lia|]. inversion_clear Hd as [|? ? [H1 H2] _]. simpl.
  destruct row as [|cell row]; [simpl in *; lia|]. inversion_clear H2. auto.
Qed.

Lemma allclose_iff d n K L : (0 < n)%nat -> (0 < K)%nat -> has_shape d n K L -> allclose1 (sum_axis1 d) = true <-> sums_to_one d L.
Proof.
  intros Hn HK Hs. unfold allclose1, sum_axis1. rewrite (dim2_shape _ _ _ _ Hn HK Hs), forallb_forall. split.
  - intros H row j Hr Hj. specialize (H _ (in_map _ _ _ Hr)). rewrite forallb_forall in H.
    specialize (H _ (in_map _ _ _ (proj2 (in_seq L 0 j) ltac:(lia)))). apply isclose1_inv in H as (v & E & Hv).
    exists v. split; [exact E|]. unfold tol in Hv. lra.
  - intros H r Hr. apply in_map_iff in Hr as (row & <- & Hrow). apply forallb_forall. intros x Hx. apply in_map_iff in Hx as (j & <- & Hj).
    apply in_seq in Hj. destruct (H row j Hrow ltac:(lia)) as (v & E & Hv). unfold nth_num. rewrite E. simpl. apply Rleb_true. lra.
Qed.

(** ** C177 *)

Section Rejects.
  Context {M : Type} (rfit : M -> list (list num) -> list num -> option (list num) -> res M) (rpred : M -> list (list num) -> res (list num)).
  Variables (K L : nat) (ac : list (list num)) (meth : fitting).
  Hypothesis HK : (0 < K)%nat.

  (** What 'iw' and 'mrdr' need: a policy of the right shape, and (in [fit]) one that sums to one. *)
  Definition policy_ok (full : bool) (n : nat) (d : option (list (list (list num)))) : Prop :=
    meth = Normal \/ exists d', d = Some d' /\ has_shape d' n K L /\ (full = true -> sums_to_one d' L).

  Lemma check_dist_cases full n d : (0 < n)%nat -> (forall d', d = Some d' -> exists n' K' L', has_shape d' n' K' L') ->
    reg_check_dist (mkReg K L ac meth) full n d = Err ValueError \/ (reg_check_dist (mkReg K L ac meth) full n d = Ok tt /\ policy_ok full n d).
  Proof.
    intros Hn Hd. unfold reg_check_dist, policy_ok. cbn [rm_method rm_actions rm_len].
    assert (G : match d with None => Err ValueError | Some d => raise_if (negb (shape_is d n K L)) ValueError ;;;
       (if full then raise_if (negb (allclose1 (sum_axis1 d))) ValueError else Ok tt) end = Err ValueError \/
      (match d with None => Err ValueError | Some d => raise_if (negb (shape_is d n K L)) ValueError ;;;
       (if full then raise_if (negb (allclose1 (sum_axis1 d))) ValueError else Ok tt) end = Ok tt /\
       exists d', d = Some d' /\ has_shape d' n K L /\ (full = true -> sums_to_one d' L))).
    { destruct d as [d|]; [|left; reflexivity]. destruct (Hd d eq_refl) as (n' & K' & L' & Hs).
      destruct (shape_is d n K L) eqn:E; [|left; reflexivity]. apply (shape_is_iff d n K L n' K' L') in E as (-> & -> & ->); auto. simpl.
      destruct full; [|right; split; auto; exists d; split; auto; split; auto; discriminate].
      destruct (allclose1 _) eqn:E; [|left; reflexivity]. right. split; auto. exists d. split; auto. split; auto. intros _.
      apply (allclose_iff d n K L) in E; auto. }
    destruct meth; [right; split; auto|destruct G as [G|[G1 G2]]; auto|destruct G as [G|[G1 G2]]; auto].
  Qed.

  (** [RegressionModel.fit], for every log, policy array and base estimator: ValueError (so no estimator has been trained) or a
      well-formed log, positions below [len_list] and, for 'iw' and 'mrdr', a policy of shape (n, n_actions, len_list) that sums to one. *)
  Theorem C177_reward_model_fit : forall models context action reward pscore position d,
    (forall d', d = Some d' -> exists n' K' L', has_shape d' n' K' L') ->
    reg_fit rfit (mkReg K L ac meth) models context action reward pscore position d = Err ValueError \/
    (log_ok (length ac) context action /\ rewards_ok action reward pscore /\ positions_ok L action position /\ policy_ok true (length context) d).
  Proof.
    intros models context action reward pscore position d Hd. unfold reg_fit. cbn [rm_ac rm_len].
    destruct (feedback_cases ac context action reward position pscore) as [->|(-> & Hl & Hr & Hp)]; [left; reflexivity|]. cbn [bind].
    destruct (fit_position_cases L action position Hp) as [->|[[pos ->] Hpos]]; [left; reflexivity|]. cbn [bind].
    assert (Hn : (0 < length context)%nat) by (destruct Hl as (Hne & -> & _); destruct action; [congruence|simpl; lia]).
    destruct (check_dist_cases true (length context) d Hn Hd) as [->|[-> Hdd]]; [left; reflexivity|]. right. auto.
  Qed.

  (** [RegressionModel.fit_predict]: the same, and [n_folds >= 1]; with several folds the sums are tested fold by fold, while training. *)
  Theorem C177_reward_model_fit_predict : forall models context action reward pscore position d n_folds fold,
    (forall d', d = Some d' -> exists n' K' L', has_shape d' n' K' L') ->
    reg_fit_predict rfit rpred (mkReg K L ac meth) models context action reward pscore position d n_folds fold = Err ValueError \/
    (log_ok (length ac) context action /\ rewards_ok action reward pscore /\ positions_ok L action position /\ (1 <= n_folds)%Z /\
     policy_ok (Z.eqb n_folds 1) (length context) d).
  Proof.
    intros models context action reward pscore position d n_folds fold Hd. unfold reg_fit_predict. cbn [rm_ac rm_len].
    destruct (feedback_cases ac context action reward position pscore) as [->|(-> & Hl & Hr & Hp)]; [left; reflexivity|]. cbn [bind].
    unfold check_scalar_Z. destruct (Z.ltb_spec n_folds 1) as [|Hf]; [left; reflexivity|]. cbn [raise_if bind].
    destruct (fit_position_cases L action position Hp) as [->|[[pos Epos] Hpos]]; [left; reflexivity|]. rewrite Epos. cbn [bind].
    assert (Hn : (0 < length context)%nat) by (destruct Hl as (Hne & -> & _); destruct action; [congruence|simpl; lia]).
    destruct (check_dist_cases false (length context) d Hn Hd) as [->|[-> Hdd]]; [left; reflexivity|]. cbn [bind].
    destruct (Z.eqb_spec n_folds 1) as [->|Hf1]; [|right; auto].
    destruct (C177_reward_model_fit models context action reward (Some (reg_pscore (mkReg K L ac meth) action pscore)) (Some pos) d Hd) as [->|(_ & _ & _ & Hdd')]; [left; reflexivity|].
    right. auto.
  Qed.

  Context {C : Type} (cfit : C -> list (list num) -> list Z -> res C) (cproba : C -> list (list num) -> res (list (list num))).
  Variable draw : list (list num) -> res (list Z).

  (** [ImportanceWeightEstimator.fit] and [fit_predict]. *)
  Theorem C177_weight_estimator_fit : forall m models context action d position,
    (exists n' K' L', has_shape d n' K' L') ->
    iw_fit cfit (mkIw K L ac m) draw models context action d position = Err ValueError \/
    (log_ok (length ac) context action /\ positions_ok L action position /\ has_shape d (length context) K L /\ sums_to_one d L).
  Proof.
    intros m models context action d position (n' & K' & L' & Hd). unfold iw_fit. cbn [iw_ac iw_len iw_actions].
    destruct (feedback_cases ac context action (repeat (Fin 0) (length action)) position None) as [->|(-> & Hl & _ & Hp)]; [left; reflexivity|]. cbn [bind].
    destruct (fit_position_cases L action position Hp) as [->|[[pos ->] Hpos]]; [left; reflexivity|]. cbn [bind].
    assert (Hn : (0 < length context)%nat) by (destruct Hl as (Hne & -> & _); destruct action; [congruence|simpl; lia]).
    destruct (shape_is d (length context) K L) eqn:E; [|left; reflexivity]. apply (shape_is_iff d _ K L n' K' L') in E as (-> & -> & ->); auto. cbn [negb raise_if bind].
    destruct (allclose1 (sum_axis1 d)) eqn:E; [|left; reflexivity]. apply (allclose_iff d (length context) K L) in E; auto.
  Qed.

  Theorem C177_weight_estimator_fit_predict : forall m models context action d position n_folds fold,
    (exists n' K' L', has_shape d n' K' L') ->
    iw_fit_predict cfit cproba (mkIw K L ac m) draw models context action d position n_folds fold = Err ValueError \/
    (log_ok (length ac) context action /\ positions_ok L action position /\ (1 <= n_folds)%Z /\ has_shape d (length context) K L /\ sums_to_one d L).
  Proof.
    intros m models context action d position n_folds fold (n' & K' & L' & Hd). unfold iw_fit_predict. cbn [iw_ac iw_len iw_actions].
    destruct (feedback_cases ac context action (repeat (Fin 0) (length action)) position None) as [->|(-> & Hl & _ & Hp)]; [left; reflexivity|]. cbn [bind].
    destruct (fit_position_cases L action position Hp) as [->|[[pos ->] Hpos]]; [left; reflexivity|]. cbn [bind].
    unfold check_scalar_Z. destruct (Z.ltb_spec n_folds 1) as [|Hf]; [left; reflexivity|]. cbn [raise_if bind].
    assert (Hn : (0 < length context)%nat) by (destruct Hl as (Hne & -> & _); destruct action; [congruence|simpl; lia]).
    destruct (shape_is d (length context) K L) eqn:E; [|left; reflexivity]. apply (shape_is_iff d _ K L n' K' L') in E as (-> & -> & ->); auto. cbn [negb raise_if bind].
    destruct (allclose1 (sum_axis1 d)) eqn:E; [|left; reflexivity]. apply (allclose_iff d (length context) K L) in E; auto.
    right. auto 6.
  Qed.

  (** [PropensityScoreEstimator.fit] and [fit_predict]. *)
  Theorem C177_propensity_fit : forall models context action position,
    ps_fit cfit K L models context action position = Err ValueError \/ (log_ok K context action /\ positions_ok L action position).
  Proof.
    intros models context action position. unfold ps_fit.
    destruct (feedback_cases (eye K) context action (repeat (Fin 0) (length action)) position None) as [->|(-> & Hl & _ & Hp)]; [left; reflexivity|]. cbn [bind].
    destruct (fit_position_cases L action position Hp) as [->|[[pos ->] Hpos]]; [left; reflexivity|].
    right. unfold eye in Hl. rewrite map_length, seq_length in Hl. auto.
  Qed.

  Theorem C177_propensity_fit_predict : forall models context action position n_folds fold,
    ps_fit_predict cfit cproba K L models context action position n_folds fold = Err ValueError \/
    (log_ok K context action /\ positions_ok L action position /\ (1 <= n_folds)%Z).
  Proof.
    intros models context action position n_folds fold. unfold ps_fit_predict.
    destruct (feedback_cases (eye K) context action (repeat (Fin 0) (length action)) position None) as [->|(-> & Hl & _ & Hp)]; [left; reflexivity|]. cbn [bind].
    destruct (fit_position_cases L action position Hp) as [->|[[pos ->] Hpos]]; [left; reflexivity|]. cbn [bind].
    unfold check_scalar_Z. destruct (Z.ltb_spec n_folds 1) as [|Hf]; [left; reflexivity|].
    right. unfold eye in Hl. rewrite map_length, seq_length in Hl. auto.
  Qed.
End Rejects.

(** Two rounds, two actions, one position: a policy array with a row for one round only is rejected; the full one is trained on. *)
Example C177_example : forall (rfit : nat -> list (list num) -> list num -> option (list num) -> res nat),
  let fit d := reg_fit rfit (mkReg 2 1 (eye 2) Iw) [0%nat] [[Fin 1]; [Fin 2]] [0; 1]%Z [Fin 1; Fin 0] (Some [Fin (1/2); Fin (1/2)]) None (Some d) in
  let row := [[Fin (1/4)]; [Fin (3/4)]] in
  fit [row] = Err ValueError /\ has_shape [row; row] 2 2 1 /\ ((forall m X y w, rfit m X y w = Ok 7%nat) -> fit [row; row] = Ok [7%nat]).
Proof.
  intros rfit fit row. split; [|split].
  - destruct (C177_reward_model_fit rfit 2 1 (eye 2) Iw ltac:(lia) [0%nat] [[Fin 1]; [Fin 2]] [0; 1]%Z [Fin 1; Fin 0] (Some [Fin (1/2); Fin (1/2)]) None (Some [row])) as [E|(_ & _ & _ & [E|(d & E & [Hl _] & _)])].
    + intros d E. injection E as <-. exists 1%nat, 2%nat, 1%nat. repeat constructor.
    + exact E.
    + discriminate.
    + injection E as <-. discriminate.
  - repeat constructor.
  - intros H. unfold fit, reg_fit.
    rewrite (decides_Ok _ _ (C94_feedback_validator _ _ _ _ _ _ _)).
    2:{ repeat split; auto; try discriminate; repeat constructor; try (simpl; lia); simpl; apply Rleb_false; lra. }
    cbn [bind fit_position].
    assert (E : reg_check_dist (mkReg 2 1 (eye 2) Iw) true (length [[Fin 1]; [Fin 2]]) (Some [row; row]) = Ok tt).
    { unfold reg_check_dist. simpl. assert (Q : forall u v, Rabs (u - 1) = 0 -> 0 < v -> Rleb (Rabs (u - 1)) v = true) by (intros u v -> Hv; apply Rleb_true; lra).
      rewrite Q; [reflexivity|unfold Rabs; destruct (Rcase_abs _); lra|lra]. }
    rewrite E. simpl. unfold reg_fit_at. simpl. rewrite !H. reflexivity.
Qed.

Print Assumptions C177_reward_model_fit.
Print Assumptions C177_reward_model_fit_predict.
Print Assumptions C177_weight_estimator_fit.
Print Assumptions C177_weight_estimator_fit_predict.
Print Assumptions C177_propensity_fit.
Print Assumptions C177_propensity_fit_predict.
