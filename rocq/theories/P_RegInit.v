(** * P_RegInit: constructors and required arguments of the reward and importance-weight models (C55, C102). *)

From Coq Require Import Reals List ZArith Lia Lra Bool.
From Verif Require Import Num NpList M_Utils M_Slate M_Multi M_Feedback M_Offline M_Reg S_Base S_Slate S_Reg L_Num L_Base
  L_Estimators L_Utils L_Slate L_Multi L_Offline L_Reg P_Sim.
Import ListNotations.
Open Scope R_scope.

(** The constructor of RegressionModel: at least two actions and one position; without action features the one-hot
    vectors of the actions are used. *)
Theorem C55_constructor : forall K L ac m,
  ((2 <= K)%Z /\ (1 <= L)%Z ->
     reg_init K L ac m = Ok (mkReg (Z.to_nat K) (Z.to_nat L)
       (match ac with Some x => x | None => tab2F (Z.to_nat K) (Z.to_nat K) (fun i j => if Nat.eqb i j then 1 else 0) end) m)) /\
  (~ ((2 <= K)%Z /\ (1 <= L)%Z) -> reg_init K L ac m = Err ValueError).
Proof.
  intros K L ac m. unfold reg_init, check_scalar_Z.
  assert (E : eye (Z.to_nat K) = tab2F (Z.to_nat K) (Z.to_nat K) (fun i j => if Nat.eqb i j then 1 else 0)).
  { unfold eye, tab2F, tabF, tab. apply map_ext. intros i. apply map_ext. intros j. unfold nbool. destruct (Nat.eqb i j); reflexivity. }
  rewrite E. destruct (Z.ltb_spec K 2), (Z.ltb_spec L 1); cbn [raise_if bind]; split; intros G; try reflexivity; lia.
Qed.

(** The same for ImportanceWeightEstimator; with fitting method "raw" given action features are replaced by one-hot
    vectors too. *)
Theorem C102_constructor : forall K L ac m,
  ((2 <= K)%Z /\ (1 <= L)%Z ->
     iw_init K L ac m = Ok (mkIw (Z.to_nat K) (Z.to_nat L)
       (match m, ac with Sample, Some x => x | _, _ => tab2F (Z.to_nat K) (Z.to_nat K) (fun i j => if Nat.eqb i j then 1 else 0) end) m)) /\
  (~ ((2 <= K)%Z /\ (1 <= L)%Z) -> iw_init K L ac m = Err ValueError).
Proof.
  intros K L ac m. unfold iw_init, check_scalar_Z.
  assert (E : eye (Z.to_nat K) = tab2F (Z.to_nat K) (Z.to_nat K) (fun i j => if Nat.eqb i j then 1 else 0)).
  { unfold eye, tab2F, tabF, tab. apply map_ext. intros i. apply map_ext. intros j. unfold nbool. destruct (Nat.eqb i j); reflexivity. }
  rewrite E. destruct (Z.ltb_spec K 2), (Z.ltb_spec L 1); cbn [raise_if bind]; split; intros G; try lia; destruct m, ac; reflexivity.
Qed.

(** Weights can only be predicted for given positions, even when there is one position. *)
Theorem C102_position_required : forall (C : Type) cproba c (models : list C) context action,
  iw_predict cproba c models context action None = Err ValueError.
Proof. reflexivity. Qed.

Lemma fit_position_total L action position : action <> [] -> (forall p, position = Some p -> p <> []) ->
  (exists q, fit_position L action position = Ok q) \/ fit_position L action position = Err ValueError.
Proof.
  intros Ha Hp. unfold fit_position. destruct position as [pos|]; [|left; eauto]. destruct (Nat.eqb L 1); [left; eauto|].
  generalize (zmaxl_spec pos). destruct (zmaxl pos) as [mx|e]; cbn [bind].
  - intros _. destruct (Z.leb (Z.of_nat L) mx); cbn; eauto.
  - intros [-> _]. exfalso. apply (Hp [] eq_refl). reflexivity.
Qed.

(** Weighted fitting methods need the evaluation policy. *)
Theorem C55_policy_required : forall (M : Type) rfit rpred c (models : list M) context action reward pscore position n_folds fold,
  rm_method c <> Normal ->
  reg_fit rfit c models context action reward pscore position None = Err ValueError /\
  reg_fit_predict rfit rpred c models context action reward pscore position None n_folds fold = Err ValueError.
Proof.
  intros M rfit rpred c models context action reward pscore position n_folds fold Hm.
  assert (D : forall b n, reg_check_dist c b n None = Err ValueError) by (intros b n; unfold reg_check_dist; destruct (rm_method c); congruence).
  unfold reg_fit, reg_fit_predict.
  destruct (C94_feedback_validator context action reward None position pscore (Some (rm_ac c))) as [[-> HV]|[-> _]]; [|auto]. cbn [bind].
  destruct HV as (Lc & Lr & (Hne & _) & _ & _ & Hp & _).
  assert (P : (exists q, fit_position (rm_len c) action position = Ok q) \/ fit_position (rm_len c) action position = Err ValueError).
  { apply fit_position_total; auto. intros p ->. destruct Hp as (Lp & _). intros ->. destruct action; [congruence|discriminate]. }
  split.
  - destruct P as [(q & ->)| ->]; [|reflexivity]. cbn [bind]. rewrite D. reflexivity.
  - unfold check_scalar_Z. destruct (Z.ltb n_folds 1); [reflexivity|]. cbn [raise_if bind].
    destruct P as [(q & ->)| ->]; [|reflexivity]. cbn [bind]. rewrite D. reflexivity.
Qed.

Example C55_constructor_example : reg_init 2 1 None Iw = Ok (mkReg 2 1 [[Fin 1; Fin 0]; [Fin 0; Fin 1]] Iw) /\ rm_method (mkReg 2 1 [] Iw) <> Normal.
Proof. split; [reflexivity|discriminate]. Qed.

Print Assumptions C55_constructor.
Print Assumptions C102_constructor.
Print Assumptions C102_position_required.
Print Assumptions C55_policy_required.
