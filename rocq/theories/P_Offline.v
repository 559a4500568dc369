(** * P_Offline: properties of the offline policy learners (C74, C75, C76, C98, C99, C100). *)

From Coq Require Import Reals List ZArith Bool Lia Lra.
From Verif Require Import Num NpList M_Utils M_Multi M_Feedback M_Estimators M_Cont M_Offline.
From Verif Require Import S_Base S_Estimators S_Tuning S_Policy S_Cont S_Slate.
From Verif Require Import L_Num L_Base L_Utils L_Estimators L_Tuning L_Multi L_Slate L_Cont.
From Coquelicot Require Import Coquelicot.
From Verif Require Import S_Offline L_Offline L_Train L_Gumbel P_Sim P_Cont.
Import ListNotations.
Open Scope R_scope.

(** ** C74: valid policies *)

(** The constructor accepts exactly n_actions >= 2 and 1 <= len_list <= n_actions. *)
Theorem C74_constructor : forall n_actions len_list,
  decides (learner_init n_actions len_list) (2 <= n_actions /\ 1 <= len_list <= n_actions)%Z.
Proof.
  intros K L. unfold decides, learner_init, check_scalar_Z. cbn [bind].
  destruct (Z.ltb_spec K 2); cbn; [right; split; auto; lia|].
  destruct (Z.ltb_spec L 1); cbn; [right; split; auto; lia|].
  destruct (Z.ltb_spec K L); cbn; [right; split; auto; lia|]. left. split; auto; lia.
Qed.

(** IPWLearner.predict puts probability one on the classifier's label and zero elsewhere. *)
Theorem C74_ipw_predict : forall n K L labels act,
  (forall p, (p < L)%nat -> labels p = tabZ n (fun i => act i p)) ->
  (forall i p, (i < n)%nat -> (p < L)%nat -> (act i p < K)%nat) ->
  ipw_predict n K L labels = Ok (one_hot3 n K L act).
Proof.
  intros n K L labels act Hl Ha. unfold ipw_predict. apply (onehot_loop (fun v => nadd v (Fin 1))); auto.
  - simpl. f_equal. ring.
  - intros x p Hp. rewrite Hl by auto. reflexivity.
Qed.

(** A label outside the action set (n_actions smaller than the largest logged action) is an IndexError. *)
Theorem C74_ipw_unknown_label : forall n K L labels p a,
  (p < L)%nat -> length (labels p) = n -> In a (labels p) -> (Z.of_nat K <= a)%Z ->
  ipw_predict n K L labels = Err IndexError.
Proof.
  intros n K L labels p a Hp Hlen Ha HK. unfold ipw_predict.
  set (f := fun dist p => upd_cells _ dist (labels p) p).
  (* shape is preserved, and only IndexError can be raised *)
  assert (Hset : forall (A : Type) (x : list A) k v, match np_set x k v with Err e => e = IndexError | Ok y => length y = length x end).
  { intros A x k v. unfold np_set. set (j := (if Z.ltb k 0 then _ else _)%Z).
    destruct (Z.leb_spec 0 j), (Z.ltb_spec j (Z.of_nat (length x))); cbn [andb]; auto.
    rewrite app_length. cbn [length]. rewrite firstn_length, skipn_length. lia. }
  assert (Hget : forall (A : Type) (x : list A) k, match np_get x k with Err e => e = IndexError | Ok _ => (k < Z.of_nat (length x))%Z end).
  { intros A x k. unfold np_get. set (j := (if Z.ltb k 0 then _ else _)%Z).
    destruct (Z.leb_spec 0 j), (Z.ltb_spec j (Z.of_nat (length x))); simpl; auto.
    destruct (nth_error x (Z.to_nat j)); auto. unfold j in *. destruct (Z.ltb_spec k 0); lia. }
  assert (Hcell : forall x a0 p0, match upd_cell (fun v => nadd v (Fin 1)) x a0 p0 with
            | Err e => e = IndexError
            | Ok y => length y = length x /\ (a0 < Z.of_nat (length x))%Z end).
  { intros x a0 p0. unfold upd_cell. pose proof (Hget _ x a0). destruct (np_get x a0) as [r|]; simpl; auto.
    pose proof (Hget _ r (Z.of_nat p0)). destruct (np_get r (Z.of_nat p0)) as [v|]; simpl; auto.
    pose proof (Hset _ r (Z.of_nat p0) (nadd v (Fin 1))). destruct (np_set r _ _) as [r'|]; simpl; auto.
    pose proof (Hset _ x a0 r'). destruct (np_set x a0 r'); simpl; auto. }
  assert (Hcells : forall (x : list (list (list num))) acts p0, length x = n -> (forall r, In r x -> length r = K) ->
            match upd_cells (fun v => nadd v (Fin 1)) x acts p0 with
            | Err e => e = IndexError
            | Ok y => length y = n /\ (forall r, In r y -> length r = K) /\ (forall b, In b acts -> (b < Z.of_nat K)%Z) end).
  { intros x acts p0 Hx Hr. unfold upd_cells. destruct (Nat.eqb_spec (length x) (length acts)) as [E|]; auto.
    assert (H : forall l : list (list (list num) * Z), (forall q, In q l -> length (fst q) = K) ->
      match mapM (fun q => upd_cell (fun v => nadd v (Fin 1)) (fst q) (snd q) p0) l with
      | Err e => e = IndexError
      | Ok y => length y = length l /\ (forall r, In r y -> length r = K) /\
                (forall q, In q l -> (snd q < Z.of_nat K)%Z) end).
    { induction l as [|q l IH]; intros Hq; simpl. split; auto. split; easy.
      pose proof (Hcell (fst q) (snd q) p0) as Hc. destruct (upd_cell _ (fst q) (snd q) p0) as [y|]; simpl; auto.
      specialize (IH (fun q' H' => Hq q' (or_intror H'))).
      destruct (mapM _ l) as [ys|]; simpl; auto. destruct IH as (I1 & I2 & I3). destruct Hc as [Hc1 Hc2].
      rewrite Hq in * by (left; auto). split; [lia|]. split.
      - intros r [<-|Hr']; auto.
      - intros q' [<-|Hq']; auto. }
    specialize (H (combine x acts)). destruct (mapM _ (combine x acts)) as [y|].
    - destruct H as (H1 & H2 & H3). { intros [r b] Hq. apply Hr. eapply in_combine_l; eauto. }
      rewrite combine_length in H1. split; [lia|]. split; auto. intros b Hb.
      apply (In_nth _ _ 0%Z) in Hb as (k & Hk & <-).
      specialize (H3 (nth k x [], nth k acts 0%Z)). apply H3.
      rewrite <- combine_nth by auto. apply nth_In. rewrite combine_length. lia.
    - apply H. intros [r b] Hq. apply Hr. eapply in_combine_l; eauto. }
  assert (Hz : length (zeros3 n K L) = n /\ forall r, In r (zeros3 n K L) -> length r = K).
  { unfold zeros3. rewrite repeat_length. split; auto. intros r Hr. apply repeat_spec in Hr as ->. apply repeat_length. }
  assert (Hloop : forall ps (s : list (list (list num))), length s = n -> (forall r, In r s -> length r = K) ->
            match loopM f ps s with
            | Err e => e = IndexError
            | Ok _ => forall p0, In p0 ps -> forall b, In b (labels p0) -> (b < Z.of_nat K)%Z end).
  { induction ps as [|p0 ps IH]; intros s Hs1 Hs2; simpl; [easy|].
    specialize (Hcells s (labels p0) p0 Hs1 Hs2). unfold f at 1.
    destruct (upd_cells _ s (labels p0) p0) as [s'|]; simpl; auto. destruct Hcells as (H1 & H2 & H3).
    specialize (IH s' H1 H2). destruct (loopM f ps s'); [|exact IH].
    intros p1 [<-|Hp1]; [exact H3|exact (IH p1 Hp1)]. }
  specialize (Hloop (seq 0 L) (zeros3 n K L) (proj1 Hz) (proj2 Hz)).
  destruct (loopM f (seq 0 L) (zeros3 n K L)) as [s|e]; [|congruence].
  specialize (Hloop p ltac:(apply in_seq; lia) a Ha). lia.
Qed.

(** QLearner.predict is one-hot for any scores; where the scores of a round and position are finite the chosen
    action is the first of largest score.  The temperature has no effect. *)
Theorem C74_q_predict : forall n K L (q : nat -> nat -> nat -> num) tau,
  (0 < K)%nat -> nlt tau (Fin 0) = false ->
  exists act,
    q_predict n K L (tab3 n K L q) tau = Ok (one_hot3 n K L act) /\
    (forall i p, (i < n)%nat -> (p < L)%nat -> (act i p < K)%nat) /\
    (forall i p (s : nat -> R), (i < n)%nat -> (p < L)%nat ->
       (forall a, (a < K)%nat -> q i a p = Fin (s a)) -> first_best K s (act i p)).
Proof.
  intros n K L q tau HK Ht.
  set (act := fun i p => match np_argmax (tab K (fun a => q i a p)) with Ok a => a | Err _ => 0%nat end).
  assert (Hact : forall i p, np_argmax (tab K (fun a => q i a p)) = Ok (act i p) /\ (act i p < K)%nat).
  { intros i p. destruct (np_argmax_ok K (fun a => q i a p) HK) as (a & E & Ha). unfold act. rewrite E. auto. }
  exists act. split; [|split].
  - unfold q_predict, check_scalar. rewrite Ht. cbn [raise_if bind].
    apply (onehot_loop (fun _ => Fin 1)); auto. { intros; apply Hact. }
    intros x p Hp. change (tab3 n K L q) with (tab n (fun i => tab K (fun a => tab L (q i a)))).
    rewrite (mapM_tab n _ _ (fun i => Z.of_nat (act i p))); auto.
    intros i Hi. rewrite map_tab.
    rewrite (tab_ext K _ (fun a => q i a p)) by (intros; unfold nth_num; apply nth_tab; auto).
    rewrite (proj1 (Hact i p)). reflexivity.
  - intros. apply Hact.
  - intros i p s Hi Hp Hs. apply np_argmax_best; auto.
    rewrite <- (proj1 (Hact i p)). f_equal. unfold tabF. apply tab_ext. intros a Ha. symmetry; auto.
Qed.

(** NNPolicyLearner.predict: one position only, the first most probable action. *)
Theorem C74_nn_predict : forall n K (y : nat -> nat -> R), (0 < K)%nat ->
  exists act,
    nn_predict n K (tab2F n K y) = Ok (one_hot3 n K 1 act) /\
    forall i, (i < n)%nat -> first_best K (y i) (act i 0%nat).
Proof.
  intros n K y HK.
  set (act := fun i (_ : nat) => match np_argmax (tabF K (y i)) with Ok a => a | Err _ => 0%nat end).
  assert (Hact : forall i p, np_argmax (tabF K (y i)) = Ok (act i p) /\ (act i p < K)%nat).
  { intros i p. destruct (np_argmax_ok K (fun a => Fin (y i a)) HK) as (a & E & Ha). unfold act, tabF. rewrite E. auto. }
  exists act. split.
  - unfold nn_predict, tab2F. rewrite (mapM_tab n _ _ (fun i => Z.of_nat (act i 0%nat))).
    2:{ intros i Hi. rewrite (proj1 (Hact i 0%nat)). reflexivity. }
    cbn [bind].
    assert (H := onehot_loop (fun _ => Fin 1) n K 1 act
      (fun x p => upd_cells (fun _ => Fin 1) x (tabZ n (fun i => act i p)) p) eq_refl
      (fun i p _ _ => proj2 (Hact i p)) (fun x p _ => eq_refl)).
    cbn [seq loopM] in H. unfold tabZ in H.
    destruct (upd_cells (fun _ => Fin 1) (zeros3 n K 1) (tab n (fun i => Z.of_nat (act i 0%nat))) 0); auto.
  - intros i Hi. apply np_argmax_best; auto. apply Hact.
Qed.

(** sample_action (IPWLearner, QLearner, and NNPolicyLearner below): every round shows a ranking of [L] distinct
    actions, one per position; with finite scores, temperature and noise it is the ranking of the [L] largest
    values of (mean score)/tau + noise, best first. *)
Theorem C74_sample_action : forall argsort n K L L' (s : nat -> nat -> nat -> num) tau (g : nat -> nat -> num),
  (forall xs, is_argsort xs (argsort xs)) -> (L <= K)%nat -> nlt tau (Fin 0) = false ->
  exists rank : nat -> list nat,
    sample_ranking argsort n K L (tab3 n K L' s) tau (tab n (fun i => tab K (g i)))
      = Ok (one_hot3 n K L (fun i p => nth p (rank i) 0%nat)) /\
    (forall i, is_ranking K L (rank i)) /\
    (forall i s0 tau0 g0, (0 < L')%nat -> tau = Fin tau0 -> tau0 <> 0 ->
       (forall a p, (a < K)%nat -> (p < L')%nat -> s i a p = Fin (s0 a p)) ->
       (forall a, (a < K)%nat -> g i a = Fin (g0 a)) ->
       best_first K L (fun a => avg L' (s0 a) / tau0 + g0 a) (rank i)).
Proof.
  intros argsort n K L L' s tau g Hs HL Ht. exists (fun i => firstn L (rank_of argsort K L' s tau g i)).
  split. apply sample_ranking_tab; auto. split.
  - intros. apply rank_of_ranking; auto.
  - intros. apply rank_of_best; auto.
Qed.

Theorem C74_nn_sample_action : forall argsort n K L (y g : nat -> nat -> R) tau,
  (forall xs, is_argsort xs (argsort xs)) -> (L <= K)%nat -> 0 < tau ->
  exists rank : nat -> list nat,
    nn_sample_action argsort n K L (tab2F n K y) (Fin tau) (tab2F n K g)
      = Ok (one_hot3 n K L (fun i p => nth p (rank i) 0%nat)) /\
    forall i, best_first K L (fun a => y i a / tau + g i a) (rank i).
Proof.
  intros argsort n K L y g tau Hs HL Ht.
  destruct (C74_sample_action argsort n K L 1 (fun i a _ => Fin (y i a)) (Fin tau) (fun i a => Fin (g i a)))
    as (rank & H1 & _ & H3); auto.
  { simpl. apply Rltb_false. lra. }
  exists rank. split.
  - rewrite <- H1. unfold nn_sample_action. f_equal. unfold nn_predict_proba, tab2F, tabF, tab3.
    rewrite map_tab. apply tab_ext. intros i Hi. rewrite map_tab. reflexivity.
  - intros i. specialize (H3 i (fun a _ => y i a) tau (g i) ltac:(lia) eq_refl ltac:(lra)
      (fun _ _ _ _ => eq_refl) (fun _ _ => eq_refl)).
    destruct H3 as (R1 & R2 & R3). unfold avg in *. cbn [sumn INR] in *.
    split; auto. split.
    + intros i0 j Hij. specialize (R2 i0 j Hij). rewrite !Rdiv_1, !Rplus_0_l in R2. exact R2.
    + intros a b Ha Hn Hb. specialize (R3 a b Ha Hn Hb). rewrite !Rdiv_1, !Rplus_0_l in R3. exact R3.
Qed.

(** predict_proba for a positive temperature: the Boltzmann probabilities of the scores, positive and summing to
    one for every round and position. *)
Theorem C74_predict_proba : forall n K L (s : nat -> nat -> nat -> R) tau,
  (0 < K)%nat -> 0 < tau ->
  let prob i a p := boltzmann K (fun b => s i b p) tau a in
  q_predict_proba L (tab3F n K L s) (Fin tau) = Ok (tab3F n K L prob) /\
  (L = 1%nat -> ipw_predict_proba L (tab3F n K L s) (Fin tau) = Ok (tab3F n K L prob)) /\
  (forall i a p, (a < K)%nat -> 0 < prob i a p) /\
  (forall i p, sumn K (fun a => prob i a p) = 1).
Proof.
  intros n K L s tau HK Ht prob.
  assert (Hc : check_scalar (Fin tau) (Some (Fin 0)) None = Ok tt).
  { unfold check_scalar. cbn [nlt]. replace (Rltb tau 0) with false by (symmetry; apply Rltb_false; lra). reflexivity. }
  assert (Hpos : forall i p, 0 < sumn K (fun b => exp (s i b p / tau))).
  { intros. apply sumn_allpos; auto. intros; apply exp_pos. }
  split; [|split; [|split]].
  - unfold q_predict_proba. rewrite Hc. cbn [bind]. apply boltzmann_array; auto.
  - intros ->. unfold ipw_predict_proba. rewrite Hc. cbn [bind Nat.eqb negb raise_if]. apply boltzmann_array; auto.
  - intros i a p Ha. unfold prob, boltzmann. apply Rdiv_lt_0_compat; auto. apply exp_pos.
  - intros i p. unfold prob, boltzmann. rewrite sumn_div. field. apply Rgt_not_eq, Hpos.
Qed.

(** A zero temperature is accepted and makes every probability NaN; a negative one is rejected. *)
Theorem C74_zero_temperature : forall n K L (s : nat -> nat -> nat -> R), (0 < K)%nat ->
  q_predict_proba L (tab3F n K L s) (Fin 0) = Ok (tab3 n K L (fun _ _ _ => NaN)) /\
  (L = 1%nat -> ipw_predict_proba L (tab3F n K L s) (Fin 0) = Ok (tab3 n K L (fun _ _ _ => NaN))).
Proof.
  intros n K L s HK.
  assert (Hc : check_scalar (Fin 0) (Some (Fin 0)) None = Ok tt).
  { unfold check_scalar. cbn [nlt]. replace (Rltb 0 0) with false by (symmetry; apply Rltb_false; lra). reflexivity. }
  assert (H : softmax_axis1 L (div3 (tab3F n K L s) (Fin 0)) = Ok (tab3 n K L (fun _ _ _ => NaN))).
  { change (tab3F n K L s) with (tab3 n K L (fun i a p => Fin (s i a p))). rewrite div3_tab.
    apply softmax_axis1_tab. intros i p Hi Hp. apply nsoftmax_special; auto.
    intros a Ha. rewrite inf_or_nan. apply inf_sign_special. }
  unfold q_predict_proba, ipw_predict_proba. rewrite Hc. split; auto. intros ->. exact H.
Qed.

(** IPWLearner.predict_proba exists for single-position learners only; negative temperatures are rejected. *)
Theorem C74_predict_proba_rejects : forall L score q_hat tau,
  (L <> 1%nat -> ipw_predict_proba L score tau = Err AssertionErr) /\
  (nlt tau (Fin 0) = true -> ipw_predict_proba 1 score tau = Err ValueError /\ q_predict_proba L q_hat tau = Err ValueError).
Proof.
  intros L score q_hat tau. unfold ipw_predict_proba, q_predict_proba, check_scalar. split.
  - intros H. apply Nat.eqb_neq in H. rewrite H. reflexivity.
  - intros H. rewrite H. split; reflexivity.
Qed.

(** IPWLearner.predict_score: the classifiers' probabilities when every action occurs in the training data of every
    position; a position where some but not all of the others are missing makes it fail. *)
Theorem C74_predict_score : forall n K L (pr : nat -> nat -> nat -> num) proba,
  (forall p, (p < L)%nat -> proba p = tab n (fun i => tab K (fun a => pr i a p))) ->
  ipw_predict_score n K L proba = Ok (tab3 n K L pr).
Proof.
  intros n K L pr proba Hp. unfold ipw_predict_score.
  set (f := fun score p => _).
  assert (H : forall m, (m <= L)%nat -> loopM f (seq 0 m) (zeros3 n K L) =
    Ok (tab3 n K L (fun i a p => if Nat.ltb p m then pr i a p else Fin 0))).
  { induction m; intros Hm. simpl. f_equal. apply zeros3_tab.
    rewrite seq_S, loopM_app, IHm by lia. cbn [bind loopM Nat.add]. unfold f. rewrite Hp by lia.
    unfold tab3 at 1 2. rewrite !tab_length, Nat.eqb_refl, combine_tab.
    rewrite (mapM_tab n _ _ (fun i => tab K (fun a => tab L (fun p => if Nat.ltb p (S m) then pr i a p else Fin 0)))).
    reflexivity. intros i Hi. cbn [fst snd]. unfold set_column. rewrite !tab_length, Nat.eqb_refl, combine_tab.
    apply mapM_tab. intros a Ha. cbn [fst snd]. rewrite np_set_tab by lia. f_equal. apply tab_ext. intros p Hpl.
    destruct (Nat.eqb_spec p m) as [E|]; destruct (Nat.ltb_spec p m); destruct (Nat.ltb_spec p (S m)); auto; try lia. }
  rewrite H by auto. f_equal. apply tab3_ext. intros i a p Hi Ha Hpl.
  replace (Nat.ltb p L) with true by (symmetry; apply Nat.ltb_lt; lia). reflexivity.
Qed.

Theorem C74_missing_class : forall n K L proba C (pr : nat -> nat -> num), (0 < n)%nat -> (0 < L)%nat ->
  (1 < C < K)%nat -> proba 0%nat = tab n (fun i => tab C (pr i)) ->
  ipw_predict_score n K L proba = Err ValueError.
Proof.
  intros n K L proba C pr Hn HL HC Hp. unfold ipw_predict_score. destruct L; [lia|]. cbn [seq loopM].
  rewrite Hp, zeros3_tab. unfold tab3 at 1 2. rewrite !tab_length, Nat.eqb_refl, combine_tab.
  destruct n; [lia|]. rewrite tab_S_first. cbn [mapM fst snd].
  unfold set_column at 1. rewrite !tab_length. replace (Nat.eqb K C) with false by (symmetry; apply Nat.eqb_neq; lia).
  destruct C as [|[|C]]; try lia. rewrite !tab_S_first. reflexivity.
Qed.

(** A classifier that saw a single action has one column: its probability is given to every action. *)
Theorem C74_single_class : forall n K L proba (pr : nat -> nat -> num), (1 < K)%nat ->
  (forall p, (p < L)%nat -> proba p = tab n (fun i => [pr i p])) ->
  ipw_predict_score n K L proba = Ok (tab3 n K L (fun i _ p => pr i p)).
Proof.
  intros n K L proba pr HK Hp. unfold ipw_predict_score. set (f := fun score p => _).
  assert (H : forall m, (m <= L)%nat -> loopM f (seq 0 m) (zeros3 n K L) =
    Ok (tab3 n K L (fun i a p => if Nat.ltb p m then pr i p else Fin 0))).
  { induction m; intros Hm. simpl. f_equal. apply zeros3_tab.
    rewrite seq_S, loopM_app, IHm by lia. cbn [bind loopM Nat.add]. unfold f. rewrite Hp by lia.
    unfold tab3 at 1 2. rewrite !tab_length, Nat.eqb_refl, combine_tab.
    rewrite (mapM_tab n _ _ (fun i => tab K (fun a => tab L (fun p => if Nat.ltb p (S m) then pr i p else Fin 0)))).
    reflexivity. intros i Hi. cbn [fst snd]. unfold set_column. rewrite tab_length.
    replace (Nat.eqb K (length [pr i m])) with false by (symmetry; apply Nat.eqb_neq; simpl; lia).
    apply mapM_tab. intros a Ha. rewrite np_set_tab by lia. f_equal. apply tab_ext. intros p Hpl.
    destruct (Nat.eqb_spec p m) as [E|]; destruct (Nat.ltb_spec p m); destruct (Nat.ltb_spec p (S m)); subst; auto; try lia. }
  rewrite H by auto. f_equal. apply tab3_ext. intros i a p Hi Ha Hpl.
  replace (Nat.ltb p L) with true by (symmetry; apply Nat.ltb_lt; lia). reflexivity.
Qed.

Example C74_example :
  ipw_predict 2 3 2 (fun p => match p with O => [2; 0]%Z | _ => [1; 1]%Z end) =
    Ok (one_hot3 2 3 2 (fun i p => match i, p with O, O => 2 | S _, O => 0 | _, _ => 1 end%nat)) /\
  ipw_predict 1 2 1 (fun _ => [5]%Z) = Err IndexError /\
  (exists act, q_predict 1 3 1 (tab3F 1 3 1 (fun _ a _ => INR a)) (Fin 1) = Ok (one_hot3 1 3 1 act) /\ act 0%nat 0%nat = 2%nat) /\
  q_predict_proba 1 (tab3F 1 2 1 (fun _ _ _ => 3)) (Fin 2) = Ok (tab3F 1 2 1 (fun _ _ _ => 1 / 2)).
Proof.
  split; [|split; [|split]].
  - apply C74_ipw_predict. intros [|[|p]] Hp; try lia; reflexivity. intros [|i] [|p]; intros; lia.
  - apply (C74_ipw_unknown_label 1 2 1 (fun _ => [5]%Z) 0 5%Z); simpl; auto; lia.
  - destruct (C74_q_predict 1 3 1 (fun _ a _ => Fin (INR a)) (Fin 1)) as (act & H1 & H2 & H3); [lia| |].
    { simpl. apply Rltb_false; lra. }
    exists act. split. exact H1. specialize (H3 0%nat 0%nat INR ltac:(lia) ltac:(lia) (fun a _ => eq_refl)).
    destruct H3 as (B1 & B2 & _). specialize (B2 2%nat ltac:(lia)). apply INR_le in B2. lia.
  - destruct (C74_predict_proba 1 2 1 (fun _ _ _ => 3) 2) as [-> _]; [lia|lra|].
    f_equal. unfold tab3F, tab2F, tabF. apply tab_ext; intros. apply tab_ext; intros. apply tab_ext; intros.
    f_equal. unfold boltzmann. cbn [sumn]. pose proof (exp_pos (3 / 2)). field. lra.
Qed.

(** ** C75: the surrogate differentiates the objective *)

(** Along any differentiable family of positive policies, the batch mean of the surrogate (current policy detached,
    differentiated through the logarithm) has at the current parameter the derivative of the estimated policy
    value, for each of the six objectives and every accepted hyper-parameter. *)
Theorem C75_surrogate_gradient : forall o lambda lv b (pi : R -> nat -> nat -> R) (dpi : nat -> nat -> R) t0,
  batch_ok b -> nn_lambda o (option_map Fin lambda) = Ok lv ->
  (forall t i a, (i < bt_n b)%nat -> (a < bt_K b)%nat -> 0 < pi t i a) ->
  (forall i a, (i < bt_n b)%nat -> (a < bt_K b)%nat -> is_derive (fun t => pi t i a) t0 (dpi i a)) ->
  exists (S : R -> R) (d : R),
    (forall t, rmap nmean (policy_grad_arr o lv (b_model b) (tab2F (bt_n b) (bt_K b) (pi t0))
                 (tab2F (bt_n b) (bt_K b) (pi t)) (b_actions b) (b_rewards b) (b_pscores b)) = Ok (Fin (S t))) /\
    is_derive S t0 d /\
    is_derive (fun t => objective_value o (lambda_value o lambda) b (pi t)) t0 d.
Proof.
  intros o lambda lv b pi dpi t0 Hb Hl Hp Hd. apply nn_lambda_ok in Hl.
  set (lam := lambda_value o lambda) in *.
  exists (fun t => avg (bt_n b) (surrogate o lam b (pi t0) (pi t))), (avg (bt_n b) (dround o lam b (pi t0) dpi)).
  split; [|split].
  - intros t. rewrite (policy_grad_arr_ok o lv lam) by (auto; exact (Hp _)). unfold rmap. cbn [bind].
    rewrite nmean_tabF by apply Hb. reflexivity.
  - apply (is_derive_avg (bt_n b) (fun t => surrogate o lam b (pi t0) (pi t))). intros i Hi.
    apply surrogate_derive; auto. exact (Hp t0).
  - apply (is_derive_avg (bt_n b) (fun t => round_value o lam b (pi t))). intros i Hi.
    apply (round_value_derive o lv); auto. exact (Hp t0).
Qed.

(** The loss of a batch of at least two rounds: minus the mean of the surrogates, plus the policy constraint
    (logarithm of the mean importance weight), plus the unbiased variance of the surrogates. *)
Theorem C75_loss : forall o lambda lv policy_reg var_reg b pi live,
  batch_ok b -> (2 <= bt_n b)%nat -> nn_lambda o (option_map Fin lambda) = Ok lv ->
  (forall i a, (i < bt_n b)%nat -> (a < bt_K b)%nat -> 0 < pi i a) ->
  (forall i a, (i < bt_n b)%nat -> (a < bt_K b)%nat -> 0 < live i a) ->
  exists S : nat -> R,
    policy_grad_arr o lv (b_model b) (tab2F (bt_n b) (bt_K b) pi) (tab2F (bt_n b) (bt_K b) live)
      (b_actions b) (b_rewards b) (b_pscores b) = Ok (tabF (bt_n b) S) /\
    nn_loss o lv (Fin policy_reg) (Fin var_reg) (b_model b) (tab2F (bt_n b) (bt_K b) pi)
      (tab2F (bt_n b) (bt_K b) live) (b_actions b) (b_rewards b) (b_pscores b) =
    Ok (Fin (- avg (bt_n b) S + policy_reg * ln (avg (bt_n b) (b_weight b live)) +
             var_reg * variance1 (bt_n b) S)).
Proof.
  intros o lambda lv pr vr b pi live Hb Hn Hl Hp Hv. apply nn_lambda_ok in Hl.
  exists (surrogate o (lambda_value o lambda) b pi live).
  assert (E := policy_grad_arr_ok o lv _ b pi live Hb Hl Hp Hv). split; auto.
  unfold nn_loss. rewrite E. cbn [bind]. unfold policy_constraint.
  unfold tab2F, b_actions. unfold tabF at 1. rewrite pick_tab by apply Hb. cbn [bind].
  unfold b_pscores, tabF at 1. rewrite bcast2_tab. cbn [bind].
  rewrite (tab_ext (bt_n b) _ (fun i => Fin (b_weight b live i))).
  2:{ intros i Hi. apply ndiv_Fin. pose proof (bo_p b Hb i Hi). lra. }
  change (tab (bt_n b) (fun i => Fin (b_weight b live i))) with (tabF (bt_n b) (b_weight b live)).
  rewrite !nmean_tabF by apply Hb.
  assert (Hw : 0 < avg (bt_n b) (b_weight b live)).
  { unfold avg. apply Rdiv_lt_0_compat. apply sumn_allpos. apply Hb. intros. apply b_weight_pos; auto.
    apply INR_pos. apply Hb. }
  rewrite nlog_Fin by auto. unfold torch_var. rewrite nmean_tabF by apply Hb.
  unfold tabF. rewrite map_tab, tab_length. unfold nsqr, nsub. cbn [nopp nadd nmul].
  change (tab (bt_n b) (fun i => Fin (?f i))) with (tabF (bt_n b) f).
  set (f := fun i : nat => _). change (tab (bt_n b) f) with (tabF (bt_n b)
    (fun i => (surrogate o (lambda_value o lambda) b pi live i +
       - avg (bt_n b) (surrogate o (lambda_value o lambda) b pi live)) *
      (surrogate o (lambda_value o lambda) b pi live i +
       - avg (bt_n b) (surrogate o (lambda_value o lambda) b pi live)))).
  rewrite nsum_tabF. assert (2 <= INR (bt_n b)) by (apply le_INR in Hn; simpl in Hn; lra).
  rewrite ndiv_Fin by lra. reflexivity.
Qed.

(** A batch of a single round has loss NaN whatever the regularisation parameters are, even zero. *)
Theorem C75_single_round_batch : forall o lambda lv policy_reg var_reg b pi live,
  batch_ok b -> bt_n b = 1%nat -> nn_lambda o (option_map Fin lambda) = Ok lv ->
  (forall i a, (i < bt_n b)%nat -> (a < bt_K b)%nat -> 0 < pi i a) ->
  (forall i a, (i < bt_n b)%nat -> (a < bt_K b)%nat -> 0 < live i a) ->
  nn_loss o lv (Fin policy_reg) (Fin var_reg) (b_model b) (tab2F (bt_n b) (bt_K b) pi)
      (tab2F (bt_n b) (bt_K b) live) (b_actions b) (b_rewards b) (b_pscores b) = Ok NaN.
Proof.
  intros o lambda lv pr vr b pi live Hb Hn Hl Hp Hv. apply nn_lambda_ok in Hl.
  assert (E := policy_grad_arr_ok o lv _ b pi live Hb Hl Hp Hv).
  unfold nn_loss. rewrite E. cbn [bind]. unfold policy_constraint.
  unfold tab2F, b_actions. unfold tabF at 1. rewrite pick_tab by apply Hb. cbn [bind].
  unfold b_pscores, tabF at 1. rewrite bcast2_tab. cbn [bind].
  assert (HN : torch_var (tabF (bt_n b) (surrogate o (lambda_value o lambda) b pi live)) = NaN).
  { unfold torch_var. rewrite nmean_tabF by lia. rewrite Hn. unfold tabF, tab, avg. cbn [seq map length sumn INR].
    unfold nsqr, nsub, nsum. cbn [nopp nadd nmul fold_right].
    replace (1 - 1) with 0 by ring. replace (_ + 0) with 0 by field. apply ndiv_0_0. }
  rewrite HN. cbn [nmul]. f_equal.
  match goal with |- nadd ?x NaN = NaN => destruct x; reflexivity end.
Qed.

(** The variance regulariser is not the variance of the estimate: here minimising it moves the parameter in the
    direction in which the variance of the round-wise estimates grows. *)
Theorem C75_variance_term_opposes : exists b (pi : R -> nat -> nat -> R) (S : R -> nat -> R) d1 d2,
  batch_ok b /\
  (forall t i a, 0 < pi t i a) /\ (forall t i, sumn (bt_K b) (pi t i) = 1) /\
  (forall lv t, policy_grad_arr Ipw lv (b_model b) (tab2F (bt_n b) (bt_K b) (pi 0)) (tab2F (bt_n b) (bt_K b) (pi t))
       (b_actions b) (b_rewards b) (b_pscores b) = Ok (tabF (bt_n b) (S t))) /\
  is_derive (fun t => variance1 (bt_n b) (S t)) 0 d1 /\ 0 < d1 /\
  is_derive (fun t => variance1 (bt_n b) (round_value Ipw 0 b (pi t))) 0 d2 /\ d2 < 0.
Proof.
  set (b := mkBatch 2 2 (fun i => i) (fun i => INR i + 1) (fun _ => 1 / 2) (fun _ _ => 0)).
  set (pi := fun (t : R) (i a : nat) => match a with O => exp t / (exp t + 1) | _ => 1 / (exp t + 1) end).
  assert (Hpi : forall t i a, 0 < pi t i a).
  { intros t i a. pose proof (exp_pos t). unfold pi. destruct a; apply Rdiv_lt_0_compat; lra. }
  assert (Hb : batch_ok b).
  { constructor; simpl; intros; try lia; try lra. }
  exists b, pi, (fun t => surrogate Ipw 0 b (pi 0) (pi t)), (3 / 2 * ln 2), (- (3 / 2)).
  split; auto. split; auto. split.
  { intros t i. simpl. pose proof (exp_pos t). field. lra. }
  split.
  { intros lv t. apply policy_grad_arr_ok; auto; try exact I; red; auto. }
  assert (Hln : 0 < ln 2) by (rewrite <- ln_1; apply ln_increasing; lra).
  assert (Hv : forall f, variance1 2 f = (f 0%nat - f 1%nat) * (f 0%nat - f 1%nat) / 2).
  { intros f. unfold variance1, avg. cbn [sumn INR]. field. }
  change (bt_n b) with 2%nat.
  split; [|split; [lra|split; [|lra]]].
  - apply (is_derive_ext (fun t => (ln (exp t / (exp t + 1)) - 2 * ln (1 / (exp t + 1))) *
                                   (ln (exp t / (exp t + 1)) - 2 * ln (1 / (exp t + 1))) / 2)).
    { intros t. rewrite Hv. unfold surrogate, b_weight, b, pi. cbn [bt_n bt_K bt_a bt_r bt_p bt_q INR dtransform].
      rewrite exp_0. unfold adjusted_reward. cbn [bt_r INR]. pose proof (exp_pos t).
      set (x := ln (exp t / (exp t + 1))). set (y := ln (1 / (exp t + 1))).
      match goal with |- ?u = ?v => change (@eq R u v) end. field. }
    auto_derive. { pose proof (exp_pos 0). repeat split; try lra; apply Rdiv_lt_0_compat; lra. }
    rewrite exp_0. match goal with |- ?u = ?v => change (@eq R u v) end. replace (1 * / (1 + 1)) with (/ 2) by field. rewrite ln_Rinv by lra. field.
  - apply (is_derive_ext (fun t => (exp t / (exp t + 1) * 2 - 1 / (exp t + 1) * 4) *
                                   (exp t / (exp t + 1) * 2 - 1 / (exp t + 1) * 4) / 2)).
    { intros t. rewrite Hv. unfold round_value, b_weight, b, pi. cbn [bt_n bt_K bt_a bt_r bt_p bt_q INR].
      pose proof (exp_pos t). match goal with |- ?u = ?v => change (@eq R u v) end. field. lra. }
    auto_derive. { pose proof (exp_pos 0). repeat split; lra. }
    rewrite exp_0. field.
Qed.

(** One round, two actions, propensity 1/2 and reward 1: the surrogate of the logistic policy has slope 1/2, as does the
    IPW estimate. *)
Example C75_example :
  let b := mkBatch 1 2 (fun _ => 0%nat) (fun _ => 1) (fun _ => 1 / 2) (fun _ _ => 0) in
  let pi := fun (t : R) (i a : nat) => match a with O => exp t / (exp t + 1) | _ => 1 / (exp t + 1) end in
  exists S : R -> R,
    (forall t, rmap nmean (policy_grad_arr Ipw NaN (b_model b) (tab2F 1 2 (pi 0)) (tab2F 1 2 (pi t))
                 (b_actions b) (b_rewards b) (b_pscores b)) = Ok (Fin (S t))) /\
    is_derive S 0 (1 / 2).
Proof.
  intros b pi.
  destruct (C75_surrogate_gradient Ipw None NaN b pi
    (fun _ a => match a with O => 1 / 4 | _ => - (1 / 4) end) 0) as (S & d & H1 & H2 & H3).
  - constructor; simpl; intros; [lia|lia|lra].
  - reflexivity.
  - intros t i a _ _. pose proof (exp_pos t). unfold pi. destruct a; apply Rdiv_lt_0_compat; lra.
  - intros i a _ _. pose proof (exp_pos 0). unfold pi. destruct a; auto_derive; try lra; rewrite exp_0; field.
  - exists S. split. exact H1. replace (1 / 2) with d. exact H2.
    apply (is_derive_unique _ _ _) in H3. rewrite <- H3. apply is_derive_unique.
    apply (is_derive_ext (fun t => 2 * (exp t / (exp t + 1)))).
    { intros t. pose proof (exp_pos t). unfold objective_value, avg, round_value, b_weight, b, pi.
      cbn [bt_n bt_a bt_p bt_r sumn INR]. match goal with |- ?u = ?v => change (@eq R u v) end. field. lra. }
    auto_derive. pose proof (exp_pos 0); lra. rewrite exp_0. field.
Qed.

(** ** C76: the training loop *)

Section TrainingLoop.
  Variables (P B : Type) (step : P -> B -> P * num) (vloss : P -> B -> num) (tol : num) (n : Z).

  (** Without [n] consecutive losses that fail to rise by [tol], every batch of every epoch is used. *)
  Theorem C76_no_stop : forall es epochs p0,
    (1 <= n)%Z ->
    (forall m, ~ streak tol (Z.to_nat n) (losses step p0 (concat (map fst epochs))) m) ->
    ts_params (fit_loop step vloss tol n es epochs p0) = trained step p0 (concat (map fst epochs)).
  Proof. exact (fit_uncut step vloss tol n). Qed.

  (** The first such streak ends its epoch: in an epoch that starts the training, exactly the batches up to and
      including the end of the streak are used. *)
  Theorem C76_first_stop : forall es l v p0 m,
    (1 <= n)%Z -> streak tol (Z.to_nat n) (losses step p0 l) m ->
    (forall m', (m' < m)%nat -> ~ streak tol (Z.to_nat n) (losses step p0 l) m') ->
    ts_params (fit_loop step vloss tol n es [(l, v)] p0) = trained step p0 (firstn (S m) l).
  Proof. exact (fit_first_streak step vloss tol n). Qed.

  (** Stopping never ends the training: every epoch with a batch takes at least one optimizer step. *)
  Theorem C76_every_epoch_steps : forall es epochs p0, exists used,
    Forall2 (fun d e => is_prefix d (fst e) /\ (fst e <> [] -> d <> [])) used epochs /\
    ts_params (fit_loop step vloss tol n es epochs p0) = trained step p0 (concat used).
  Proof. exact (fit_prefixes step vloss tol n). Qed.

  (** When every optimizer step keeps or lowers the loss, training uses the first [n + 1] batches and then a single
      batch of every later epoch: the better the run, the earlier it is cut. *)
  Theorem C76_improving_run : forall t es epochs p0,
    tol = Fin t -> 0 < t -> (1 <= n)%Z ->
    (forall p b b', exists x y,
       snd (step p b) = Fin x /\ snd (step (fst (step p b)) b') = Fin y /\ y <= x) ->
    ts_params (fit_loop step vloss tol n es epochs p0) =
    trained step p0 (then_one_each (S (Z.to_nat n)) (map fst epochs)).
  Proof. intros. apply (improving_fit step vloss tol n t); auto. Qed.

  (** When every step raises the loss by [tol] or more, training is never cut. *)
  Theorem C76_rising_run : forall t es epochs p0,
    tol = Fin t -> (1 <= n)%Z ->
    (forall p b b', exists x y,
       snd (step p b) = Fin x /\ snd (step (fst (step p b)) b') = Fin y /\ x + t <= y) ->
    ts_params (fit_loop step vloss tol n es epochs p0) = trained step p0 (concat (map fst epochs)).
  Proof.
    intros t es epochs p0 Ht Hn H. apply C76_no_stop; auto.
    assert (Hr : forall l p j, (S j < length l)%nat -> ~ no_rise tol (losses step p l) j).
    { induction l as [|b l IH]; intros p j Hj; simpl in Hj; [lia|].
      destruct j as [|j].
      - destruct l as [|b' l]; [simpl in Hj; lia|]. unfold no_rise. cbn [losses nth].
        destruct (H p b b') as (x & y & E1 & E2 & Hxy). rewrite E1, E2, Ht. simpl.
        rewrite Rltb_true. lra.
      - exact (IH (fst (step p b)) j ltac:(lia)). }
    intros m [Hm Hs]. rewrite losses_length in Hm.
    apply (Hr (concat (map fst epochs)) p0 (m - 1)%nat). lia. apply Hs. lia.
  Qed.

  (** The validation data and the early-stopping switch have no effect on the parameters. *)
  Theorem C76_validation_irrelevant : forall epochs epochs' es es' p0,
    map fst epochs = map fst epochs' ->
    ts_params (fit_loop step vloss tol n es epochs p0) = ts_params (fit_loop step vloss tol n es' epochs' p0).
  Proof.
    intros epochs epochs' es es' p0 H.
    rewrite (fit_validation step vloss tol n epochs p0 es false).
    rewrite (fit_validation step vloss tol n epochs' p0 es' false).
    unfold fit_loop. generalize (mkTrain p0 0%Z None 0%Z None). revert epochs' H.
    induction epochs as [|e ep IH]; intros [|e' ep'] H s; try discriminate; auto.
    injection H as H1 H2. cbn [fold_left]. rewrite H1. apply IH. auto.
  Qed.
End TrainingLoop.

(** Early stopping splits the rounds: at least one round is held out, and none is left to train on exactly when the
    validation fraction is 1. *)
Theorem C76_split : forall n f, (2 <= n)%nat -> 0 < f <= 1 -> exists t v,
  split_sizes true n f = Ok (t, v) /\ (t + v = Z.of_nat n)%Z /\ (1 <= v)%Z /\ (0 <= t)%Z /\
  IZR v <= Rmax 1 (INR n * f) /\ INR n * f < IZR v + 1 /\ (t = 0%Z <-> f = 1).
Proof.
  intros n f Hn Hf. unfold split_sizes. replace (Nat.leb n 1) with false by (symmetry; apply Nat.leb_gt; lia).
  cbn [raise_if bind]. eexists _, _. split. reflexivity.
  set (x := INR n * f). destruct (base_Int_part x) as [B1 B2].
  assert (HnR : 2 <= INR n) by (apply le_INR in Hn; simpl in Hn; lra).
  assert (Hx : x <= INR n) by (unfold x; nra).
  assert (Hle : (Int_part x <= Z.of_nat n)%Z) by (apply le_IZR; rewrite <- INR_IZR_INZ; lra).
  split; [lia|]. split; [lia|]. split; [lia|]. split; [|split].
  - destruct (Z.max_spec (Int_part x) 1) as [[A ->]|[A ->]].
    + apply Rmax_l.
    + apply Rle_trans with x; [lra|apply Rmax_r].
  - assert (IZR (Int_part x) <= IZR (Z.max (Int_part x) 1)) by (apply IZR_le; lia). lra.
  - split.
    + intros E. assert (Ei : Int_part x = Z.of_nat n) by lia. rewrite Ei, <- INR_IZR_INZ in B1. unfold x in B1. nra.
    + intros ->. unfold x in *. rewrite Rmult_1_r in *. rewrite INR_IZR_INZ in B2 |- *.
      assert (Z.of_nat n - 1 < Int_part (IZR (Z.of_nat n)))%Z by (apply lt_IZR; rewrite minus_IZR; lra). 
      rewrite INR_IZR_INZ in Hle. lia.
Qed.

(** Three epochs of four batches with n_iter_no_change = 2: a loss falling at every step uses 3 + 1 + 1 batches, a loss
    rising at every step all 12. *)
Example C76_example :
  let epochs := repeat ([tt; tt; tt; tt], [tt]) 3 in
  ts_params (fit_loop (fun p _ => (S p, Fin (- INR p))) (fun _ _ => Fin 0) (Fin (1 / 2)) 2 true epochs 0%nat) = 5%nat /\
  ts_params (fit_loop (fun p _ => (S p, Fin (INR p))) (fun _ _ => Fin 0) (Fin (1 / 2)) 2 true epochs 0%nat) = 12%nat /\
  ts_params (fit_loop (fun p _ => (S p, Fin (- INR p))) (fun _ _ => Fin 0) (Fin (1 / 2)) 2 true
               [([tt; tt; tt; tt], [tt])] 0%nat) = 3%nat.
Proof.
  intros epochs. split; [|split].
  - rewrite (C76_improving_run _ _ _ _ _ _ (1 / 2)); auto; try lra; try lia.
    intros p b b'. exists (- INR p), (- INR (S p)). split; [|split]; auto. rewrite S_INR. lra.
  - rewrite (C76_rising_run _ _ _ _ _ _ (1 / 2)); auto; try lra; try lia.
    intros p b b'. exists (INR p), (INR (S p)). split; [|split]; auto. rewrite S_INR. lra.
  - rewrite (C76_first_stop _ _ _ _ _ _ _ _ _ _ 2%nat); auto; try lia.
    + split. simpl; lia. intros j Hj. change (Z.to_nat 2) with 2%nat in Hj. unfold no_rise.
      destruct j as [|[|j]]; try lia; simpl; apply Rltb_true; lra.
    + intros m' Hm [Hs _]. change (Z.to_nat 2) with 2%nat in Hs. lia.
Qed.

(** ** C98: the Gumbel trick *)

(** The action at the first position of a sampled ranking is the one whose perturbed score is largest. *)
Theorem C98_first_position : forall argsort n K L (s g : nat -> nat -> R) tau,
  (forall xs, is_argsort xs (argsort xs)) -> (1 <= L <= K)%nat -> 0 < tau ->
  exists act : nat -> nat -> nat,
    sample_ranking argsort n K L (tab3F n K 1 (fun i a _ => s i a)) (Fin tau) (tab2F n K g)
      = Ok (one_hot3 n K L act) /\
    forall i a, (i < n)%nat -> (a < K)%nat ->
      (forall b, (b < K)%nat -> b <> a -> s i b / tau + g i b < s i a / tau + g i a) -> act i 0%nat = a.
Proof.
  intros argsort n K L s g tau Hs HL Ht.
  destruct (C74_sample_action argsort n K L 1 (fun i a _ => Fin (s i a)) (Fin tau) (fun i a => Fin (g i a)))
    as (rank & H1 & _ & H3); auto; try lia.
  { simpl. apply Rltb_false. lra. }
  exists (fun i p => nth p (rank i) 0%nat). split. exact H1.
  intros i a Hi Ha Hmax.
  specialize (H3 i (fun a _ => s i a) tau (g i) ltac:(lia) eq_refl ltac:(lra)
      (fun _ _ _ _ => eq_refl) (fun _ _ => eq_refl)).
  destruct H3 as ((R0 & R1 & R1') & R2 & R3). unfold avg in *. cbn [sumn INR] in *.
  assert (HIn : forall j, (j < L)%nat -> In (nth j (rank i) 0%nat) (rank i)) by (intros; apply nth_In; lia).
  destruct (Nat.eq_dec (nth 0 (rank i) 0%nat) a) as [|Hne]; auto.
  assert (Hlt := Hmax (nth 0 (rank i) 0%nat) (R1' _ (HIn 0%nat ltac:(lia))) Hne).
  destruct (in_dec Nat.eq_dec a (rank i)) as [Hin|Hout].
  - apply (In_nth _ _ 0%nat) in Hin. destruct Hin as (j & Hj & E).
    destruct j as [|j]; [contradiction|]. specialize (R2 0%nat (S j) ltac:(lia)). rewrite E in R2. lra.
  - specialize (R3 a _ Ha Hout (HIn 0%nat ltac:(lia))). lra.
Qed.

(** With one position, predict_proba of IPWLearner and QLearner is exactly the distribution of that first action when
    the noise is independent standard Gumbel. *)
Theorem C98_predict_proba_is_sampling_probability : forall n K (s : nat -> nat -> R) tau,
  (0 < K)%nat -> 0 < tau ->
  exists prob : nat -> nat -> R,
    q_predict_proba 1 (tab3F n K 1 (fun i a _ => s i a)) (Fin tau) = Ok (tab3F n K 1 (fun i a _ => prob i a)) /\
    ipw_predict_proba 1 (tab3F n K 1 (fun i a _ => s i a)) (Fin tau) = Ok (tab3F n K 1 (fun i a _ => prob i a)) /\
    forall i a, (a < K)%nat ->
      first_choice_probability K (fun b => s i b / tau) a (prob i a) /\
      (forall v, first_choice_probability K (fun b => s i b / tau) a v -> v = prob i a).
Proof.
  intros n K s tau HK Ht. exists (fun i a => boltzmann K (s i) tau a).
  destruct (C74_predict_proba n K 1 (fun i a _ => s i a) tau HK Ht) as (H1 & H2 & _).
  split; auto. split; auto. intros i a Ha.
  assert (G := gumbel_max_softmax K (fun b => s i b / tau) a Ha).
  split. exact G. intros v Hv. apply (first_choice_unique _ _ _ _ _ Hv G).
Qed.

(** NNPolicyLearner.sample_action adds the noise to the probabilities, not to their logarithms: the actions it samples
    do not have the probabilities predict_proba returns. *)
Theorem C98_nn_sampling_differs : exists (K : nat) (y : nat -> R) (v : R),
  (forall a, (a < K)%nat -> 0 < y a) /\ sumn K y = 1 /\
  nn_predict_proba (tab2F 1 K (fun _ => y)) = tab3F 1 K 1 (fun _ a _ => y a) /\
  first_choice_probability K (fun b => y b / 1) 0 v /\ v < y 0%nat.
Proof.
  exists 2%nat, (fun a => match a with O => 9 / 10 | _ => 1 / 10 end), (boltzmann 2 (fun a => match a with O => 9 / 10 | _ => 1 / 10 end) 1 0).
  split. { intros [|a]; lra. } split. { simpl; lra. } split. reflexivity.
  split. { apply (gumbel_max_softmax 2 (fun b => match b with O => 9 / 10 | _ => 1 / 10 end / 1) 0). lia. }
  unfold boltzmann. cbn [sumn]. rewrite !Rdiv_1.
  assert (H3 : exp (9 / 10) < 9 * exp (1 / 10)).
  { replace (9 / 10) with (8 / 10 + 1 / 10) by lra. rewrite exp_plus.
    apply Rmult_lt_compat_r. apply exp_pos. apply Rlt_trans with (exp 1). apply exp_increasing; lra.
    pose proof exp_le_3. lra. }
  pose proof (exp_pos (9 / 10)). pose proof (exp_pos (1 / 10)).
  apply (Rmult_lt_reg_r (0 + exp (9 / 10) + exp (1 / 10))). lra.
  unfold Rdiv at 1. rewrite Rmult_assoc, Rinv_l by lra. lra.
Qed.

(** Two actions with scores 1 and 0 at temperature 1: the first has probability e / (e + 1). *)
Example C98_example : exists prob : nat -> nat -> R,
  q_predict_proba 1 (tab3F 1 2 1 (fun _ a _ => INR (1 - a))) (Fin 1) = Ok (tab3F 1 2 1 (fun i a _ => prob i a)) /\
  first_choice_probability 2 (fun b => INR (1 - b) / 1) 0 (prob 0%nat 0%nat) /\
  prob 0%nat 0%nat = exp 1 / (exp 1 + 1).
Proof.
  destruct (C98_predict_proba_is_sampling_probability 1 2 (fun _ b => INR (1 - b)) 1)
    as (prob & Hq & _ & H); [lia|lra|]. destruct (H 0%nat 0%nat ltac:(lia)) as [H1 H2].
  exists prob. split; auto. split; auto. symmetry. apply H2.
  assert (G := gumbel_max_softmax 2 (fun b => INR (1 - b) / 1) 0 ltac:(lia)).
  simpl in G. rewrite !Rdiv_1, exp_0, Rplus_0_l in G. exact G.
Qed.

(** ** C99: IPWLearner reduces policy learning to weighted classification *)

(** The training set of each position: the rounds logged at that position, each weighted by reward over propensity
    and labelled with the logged action. *)
Theorem C99_training_sets : forall n L (X : nat -> list num) a r p pos arg,
  (0 < n)%nat -> (1 <= L)%nat ->
  (forall i, (i < n)%nat -> 0 <= r i /\ 0 < p i /\ (pos i < L)%nat) ->
  arg = Some (tabZ n pos) \/ (arg = None /\ L = 1%nat) ->
  ipw_fit L (tab n X) (tabZ n a) (tabF n r) (Some (tabF n p)) arg =
  Ok (tab L (fun q => (map X (rounds_at n pos q), map (fun i => Fin (r i / p i)) (rounds_at n pos q),
                       map (fun i => Z.of_nat (a i)) (rounds_at n pos q)))).
Proof.
  intros n L X a r p pos arg Hn HL H Harg. unfold ipw_fit.
  assert (HZ : forall f, List.Forall (fun x => (0 <= x)%Z) (tabZ n f)).
  { intros f. apply Forall_forall. intros x Hx. unfold tabZ in Hx. rewrite In_tab in Hx. destruct Hx as (i & _ & <-). lia. }
  destruct (C94_feedback_validator (tab n X) (tabZ n a) (tabF n r) None arg (Some (tabF n p)) None) as [[E _]|[_ Hbad]].
  2:{ exfalso. apply Hbad. unfold tabF, tabZ. rewrite !tab_length.
      split; auto. split; auto. split; [|split; [exact I|split; [|split; [|exact I]]]].
      - split. intros E0. apply (f_equal (@length Z)) in E0. rewrite tab_length in E0. simpl in E0. lia.
        eapply Forall_impl; [|apply (HZ a)]. simpl. auto.
      - split; auto. apply Forall_forall. intros x Hx. rewrite In_tab in Hx. destruct Hx as (i & Hi & <-). simpl. apply Rleb_false.
        apply H; auto.
      - destruct Harg as [-> | [-> _]]; auto. unfold tabZ. rewrite tab_length. split; auto. apply HZ. }
  rewrite E. cbn [bind].
  assert (En : any_lt0 (tabF n r) = false).
  { unfold any_lt0. apply existsb_false_forall. apply Forall_forall. intros x Hx. unfold tabF in Hx. rewrite In_tab in Hx.
    destruct Hx as (i & Hi & <-). simpl. apply Rltb_false. apply H; auto. }
  rewrite En. cbn [raise_if bind default_pscore].
  assert (Ep : default_position L (tabZ n a) arg = Ok (tabZ n pos)).
  { unfold default_position. destruct (Nat.eqb_spec L 1) as [E1|E1].
    - f_equal. unfold tabZ. rewrite map_tab. apply tab_ext. intros i Hi. destruct (H i Hi) as (_ & _ & Hp).
      replace (pos i) with 0%nat by lia. reflexivity.
    - destruct Harg as [-> | [_ Hl]]; auto. lia. }
  rewrite Ep. cbn [bind]. apply mapM_Ok.
  intros q Hq. unfold ipw_train, tabZ, tabF. rewrite map_tab.
  repeat (first [rewrite mask_get_tab | rewrite bcast2_map]; cbn [bind]).
  unfold rounds_at, sel. rewrite (filter_ext (fun i => Z.eqb (Z.of_nat q) (Z.of_nat (pos i))) (fun i => Nat.eqb (pos i) q)).
  2:{ intros i. destruct (Z.eqb_spec (Z.of_nat q) (Z.of_nat (pos i))), (Nat.eqb_spec (pos i) q); auto; lia. }
  f_equal. f_equal. f_equal. apply map_ext_in. intros i Hi. apply filter_In in Hi. destruct Hi as [Hi _].
  apply in_seq in Hi. apply ndiv_Fin. destruct (H i ltac:(lia)) as (_ & Hp & _). lra.
Qed.

Lemma sumn_pick K c (f : nat -> R) : (c < K)%nat -> sumn K (fun b => if Nat.eq_dec c b then f b else 0) = f c.
Proof.
  intros H. rewrite (sumn_term K _ c); auto.
  - destruct (Nat.eq_dec c c); [auto|congruence].
  - intros j Hj Hne. destruct (Nat.eq_dec c j); [congruence|auto].
Qed.

Lemma correct_weight_ok n (X : nat -> list num) a r p pos (h : list num -> nat) q :
  correct_weight (fun x => Z.of_nat (h x))
    (map X (rounds_at n pos q), map (fun i => Fin (r i / p i)) (rounds_at n pos q),
     map (fun i => Z.of_nat (a i)) (rounds_at n pos q)) =
  Fin (sumn n (fun i => if Nat.eqb (pos i) q then (if Nat.eqb (h (X i)) (a i) then r i / p i else 0) else 0)).
Proof.
  unfold correct_weight.
  rewrite <- lsum_sel. change (sel n (fun i => Nat.eqb (pos i) q)) with (rounds_at n pos q).
  induction (rounds_at n pos q) as [|i t IH]; auto. cbn [map combine fold_right fst snd lsum] in *.
  rewrite IH. replace (Z.eqb (Z.of_nat (h (X i))) (Z.of_nat (a i))) with (Nat.eqb (h (X i)) (a i)).
  2:{ destruct (Nat.eqb_spec (h (X i)) (a i)), (Z.eqb_spec (Z.of_nat (h (X i))) (Z.of_nat (a i))); auto; lia. }
  destruct (Nat.eqb _ _); reflexivity.
Qed.

(** The total weight that classifiers [h] (one per position) get right is n times the IPW estimate of the policy
    IPWLearner predicts with them on the same contexts. *)
Theorem C99_reduction : forall n K L (X : nat -> list num) a r p pos (h : nat -> list num -> nat),
  (0 < n)%nat -> (1 <= L)%nat ->
  (forall i, (i < n)%nat -> 0 <= r i /\ 0 < p i /\ (pos i < L)%nat /\ (a i < K)%nat) ->
  (forall q x, (h q x < K)%nat) ->
  exists sets dist v,
    ipw_fit L (tab n X) (tabZ n a) (tabF n r) (Some (tabF n p)) (Some (tabZ n pos)) = Ok sets /\
    ipw_predict n K L (fun q => tabZ n (fun i => h q (X i))) = Ok dist /\
    ipw_value PInf false (tabF n r) (tabZ n a) dist (Some (tabF n p)) (Some (tabZ n pos)) None = Ok (Fin v) /\
    nsum (map (fun t => correct_weight (fun x => Z.of_nat (h (fst t) x)) (snd t)) (combine (seq 0 L) sets))
      = Fin (INR n * v).
Proof.
  intros n K L X a r p pos h Hn HL H Hh.
  assert (Hset := C99_training_sets n L X a r p pos (Some (tabZ n pos)) Hn HL
    (fun i Hi => match H i Hi with conj A (conj B (conj C _)) => conj A (conj B C) end) (or_introl eq_refl)).
  set (l := {| lg_n := n; lg_K := K; lg_L := L; lg_r := r; lg_a := a; lg_pos := pos; lg_p := p;
               lg_pi := fun i b q => if Nat.eq_dec (h q (X i)) b then 1 else 0; lg_q := fun _ _ _ => 0 |}).
  eexists _, _, (spec_ipw None l). split. exact Hset.
  split. { apply C74_ipw_predict with (act := fun i q => h q (X i)); auto. }
  split.
  - change PInf with (lam_num None). change (tabF n r) with (rewards l). change (tabZ n a) with (actions l).
    change (tabF n p) with (pscores l). change (tabZ n pos) with (positions l).
    replace (one_hot3 n K L (fun i q => h q (X i))) with (policy l).
    + apply ipw_value_ok; [|left; auto|reflexivity].
      constructor; cbn [l lg_n lg_K lg_L lg_r lg_a lg_pos lg_p lg_pi]; auto; try (intros i Hi; apply H; auto).
      intros i q Hi Hq. rewrite sumn_pick by auto. rewrite Rminus_diag_eq, Rabs_R0 by auto. unfold tol. lra.
    + unfold policy, one_hot3. reflexivity.
  - transitivity (nsum (tabF L (fun q => sumn n (fun i => if Nat.eqb (pos i) q
        then (if Nat.eqb (h q (X i)) (a i) then r i / p i else 0) else 0)))).
    + f_equal. unfold tabF.
      replace (combine (seq 0 L) _) with (tab L (fun q => (q, (map X (rounds_at n pos q),
        map (fun i => Fin (r i / p i)) (rounds_at n pos q), map (fun i => Z.of_nat (a i)) (rounds_at n pos q))))).
      2:{ rewrite <- combine_tab. f_equal. unfold tab. rewrite map_id. reflexivity. }
      rewrite map_tab. apply tab_ext. intros q Hq. apply (correct_weight_ok n X a r p pos (h q)).
    + rewrite nsum_tabF. f_equal. unfold spec_ipw, avg. change (lg_n l) with n.
      replace (INR n * (_ / INR n)) with (sumn n (fun i => lg_r l i * clip None (weight l i))).
      2:{ field. apply INR_ne. auto. }
      rewrite sumn_swap. apply sumn_ext. intros i Hi.
      destruct (H i Hi) as (_ & Hp & Hq & _).
      rewrite (sumn_ext L _ (fun q => if Nat.eq_dec (pos i) q then (if Nat.eqb (h q (X i)) (a i) then r i / p i else 0) else 0)).
      2:{ intros q _. destruct (Nat.eqb_spec (pos i) q), (Nat.eq_dec (pos i) q); auto; congruence. }
      rewrite sumn_pick by auto. unfold clip, weight. cbn [l lg_r lg_p lg_a lg_pos lg_pi].
      destruct (Nat.eqb_spec (h (pos i) (X i)) (a i)), (Nat.eq_dec (h (pos i) (X i)) (a i)); try congruence; field; lra.
Qed.

(** Classifiers that get at least as much weight right at every position give a policy with at least as high an IPW
    estimate: maximising weighted accuracy over a class of classifiers maximises the estimate over their policies. *)
Theorem C99_better_classifiers : forall n K L (X : nat -> list num) a r p pos (h h' : nat -> list num -> nat)
    sets dist dist' v v',
  (0 < n)%nat -> (1 <= L)%nat ->
  (forall i, (i < n)%nat -> 0 <= r i /\ 0 < p i /\ (pos i < L)%nat /\ (a i < K)%nat) ->
  (forall q x, (h q x < K)%nat) -> (forall q x, (h' q x < K)%nat) ->
  ipw_fit L (tab n X) (tabZ n a) (tabF n r) (Some (tabF n p)) (Some (tabZ n pos)) = Ok sets ->
  ipw_predict n K L (fun q => tabZ n (fun i => h q (X i))) = Ok dist ->
  ipw_predict n K L (fun q => tabZ n (fun i => h' q (X i))) = Ok dist' ->
  ipw_value PInf false (tabF n r) (tabZ n a) dist (Some (tabF n p)) (Some (tabZ n pos)) None = Ok (Fin v) ->
  ipw_value PInf false (tabF n r) (tabZ n a) dist' (Some (tabF n p)) (Some (tabZ n pos)) None = Ok (Fin v') ->
  (forall q S, nth_error sets q = Some S ->
     nle (correct_weight (fun x => Z.of_nat (h' q x)) S) (correct_weight (fun x => Z.of_nat (h q x)) S) = true) ->
  v' <= v.
Proof.
  intros n K L X a r p pos h h' sets dist dist' v v' Hn HL H Hh Hh' Ef Ed Ed' Ev Ev' Hq.
  destruct (C99_reduction n K L X a r p pos h Hn HL H Hh) as (s1 & d1 & v1 & A1 & A2 & A3 & A4).
  destruct (C99_reduction n K L X a r p pos h' Hn HL H Hh') as (s2 & d2 & v2 & B1 & B2 & B3 & B4).
  rewrite Ef in A1, B1. injection A1 as <-. injection B1 as <-.
  rewrite Ed in A2. injection A2 as <-. rewrite Ed' in B2. injection B2 as <-.
  rewrite Ev in A3. injection A3 as <-. rewrite Ev' in B3. injection B3 as <-.
  rewrite (C99_training_sets n L X a r p pos) in Ef; auto.
  2:{ intros i Hi. destruct (H i Hi) as (C1 & C2 & C3 & _). auto. }
  injection Ef as <-.
  set (set_ := fun q => (map X (rounds_at n pos q), map (fun i => Fin (r i / p i)) (rounds_at n pos q),
                       map (fun i => Z.of_nat (a i)) (rounds_at n pos q))) in *.
  set (val := fun (g : nat -> list num -> nat) q => sumn n (fun i => if Nat.eqb (pos i) q
        then (if Nat.eqb (g q (X i)) (a i) then r i / p i else 0) else 0)).
  assert (E : forall g, nsum (map (fun t => correct_weight (fun x => Z.of_nat (g (fst t) x)) (snd t)) (combine (seq 0 L) (tab L set_)))
              = Fin (sumn L (val g))).
  { intros g. rewrite <- nsum_tabF. f_equal.
    replace (combine (seq 0 L) _) with (tab L (fun q => (q, set_ q))).
    2:{ rewrite <- combine_tab. f_equal. unfold tab. rewrite map_id. reflexivity. }
    rewrite map_tab. apply tab_ext. intros q _. apply (correct_weight_ok n X a r p pos (g q)). }
  rewrite E in A4, B4. injection A4 as A4. injection B4 as B4.
  assert (Hle : sumn L (val h') <= sumn L (val h)).
  { apply sumn_le. intros q Hl. specialize (Hq q (set_ q)). rewrite nth_error_tab in Hq by auto.
    specialize (Hq eq_refl). unfold set_ in Hq. rewrite !correct_weight_ok in Hq. cbn [nle] in Hq.
    rewrite Rleb_true in Hq. exact Hq. }
  rewrite A4, B4 in Hle. assert (0 < INR n) by (apply INR_pos; auto). nra.
Qed.

(** A negative reward, or several positions without a position array, is rejected with ValueError. *)
Theorem C99_rejects : forall L context action reward pscore position,
  check_bandit_feedback_inputs context action reward None position pscore None = Ok tt ->
  List.Exists (fun x => nlt x (Fin 0) = true) reward \/ (L <> 1%nat /\ position = None) ->
  ipw_fit L context action reward pscore position = Err ValueError.
Proof.
  intros L context action reward pscore position Hc H. unfold ipw_fit. rewrite Hc. cbn [bind].
  destruct (any_lt0 reward) eqn:E; auto.
  destruct H as [H|[HL ->]].
  - exfalso. unfold any_lt0 in E. apply existsb_false_forall in E. rewrite Forall_forall in E.
    apply Exists_exists in H. destruct H as (x & Hx & Hl). specialize (E x Hx). simpl in E. congruence.
  - cbn [raise_if bind]. destruct (default_pscore action pscore) as [q|e] eqn:Eq.
    + cbn [bind default_position]. unfold default_position. destruct (Nat.eqb_spec L 1); [contradiction|reflexivity].
    + cbn [bind]. destruct (C94_feedback_validator context action reward None None pscore None) as [[_ Hv]|[Hv _]]; [|congruence].
      destruct Hv as (_ & _ & (Hne & _) & _). destruct pscore; [discriminate|]. simpl in Eq.
      destruct action as [|a0 t]; [congruence|]. discriminate.
Qed.

(** Without propensities every round counts as logged with probability 1/(largest logged action + 1), whatever
    n_actions is. *)
Theorem C99_default_propensity : forall L context action reward position m,
  check_bandit_feedback_inputs context action reward None position None None = Ok tt ->
  In m action -> (forall a, In a action -> (a <= m)%Z) ->
  ipw_fit L context action reward None position =
  ipw_fit L context action reward (Some (map (fun _ => Fin (1 / IZR (m + 1))) action)) position.
Proof.
  intros L context action reward position m Hc Hm Hmax.
  assert (H0 := C94_feedback_validator context action reward None position None None).
  destruct H0 as [[_ (V1 & V2 & V3 & _ & _ & V4 & _)]|[V _]]; [|congruence].
  assert (Hpos : (0 <= m)%Z) by (destruct V3 as [_ V3]; rewrite Forall_forall in V3; apply V3; auto).
  assert (Hm1 : 0 < IZR (m + 1)) by (apply IZR_lt; lia).
  destruct (C94_feedback_validator context action reward None position (Some (map (fun _ => Fin (1 / IZR (m + 1))) action)) None)
    as [[Hc' _]|[_ Hbad]].
  - unfold ipw_fit. rewrite Hc, Hc'. cbn [bind]. destruct (any_lt0 reward); auto. cbn [raise_if bind default_pscore].
    assert (Ez : zmaxl action = Ok m).
    { pose proof (zmaxl_spec action) as Hz. destruct (zmaxl action) as [x|e].
      - destruct Hz as (_ & H1 & H2). f_equal. specialize (H2 m Hm). specialize (Hmax x H1). lia.
      - destruct Hz as [-> _]. destruct Hm. }
    rewrite Ez. cbn [bind]. rewrite ndiv_Fin by lra. reflexivity.
  - exfalso. apply Hbad. rewrite map_length. repeat split; auto; try apply V3.
    + apply Forall_forall. intros x Hx. apply in_map_iff in Hx. destruct Hx as (y & <- & _). simpl. apply Rleb_false.
      apply Rdiv_lt_0_compat; lra.
Qed.

(** Two positions, three rounds, two actions: the classifiers "always 0" and "always 1" get weight 1 + 3/(1/4) and
    2/(1/2) right, a total of 17, three times the estimate. *)
Example C99_example : exists sets dist,
  let r i := INR i + 1 in let p i := / 2 ^ i in let pos i := (i mod 2)%nat in
  ipw_fit 2 (tab 3 (fun _ => [Fin 0])) (tabZ 3 (fun i => i mod 2)%nat) (tabF 3 r) (Some (tabF 3 p)) (Some (tabZ 3 pos)) = Ok sets /\
  ipw_predict 3 2 2 (fun q => tabZ 3 (fun i => match q with O => 0 | _ => 1 end)%nat) = Ok dist /\
  ipw_value PInf false (tabF 3 r) (tabZ 3 (fun i => i mod 2)%nat) dist (Some (tabF 3 p)) (Some (tabZ 3 pos)) None
    = Ok (Fin (17 / 3)) /\
  nsum (map (fun t => correct_weight (fun _ => Z.of_nat (match fst t with O => 0 | _ => 1 end)) (snd t)) (combine (seq 0 2) sets))
    = Fin 17.
Proof.
  destruct (C99_reduction 3 2 2 (fun _ => [Fin 0]) (fun i => i mod 2)%nat (fun i => INR i + 1) (fun i => / 2 ^ i)
    (fun i => i mod 2)%nat (fun q _ => match q with O => 0 | _ => 1 end)%nat) as (sets & dist & v & H1 & H2 & H3 & H4);
    try lia.
  { intros i Hi. pose proof (pos_INR i). pose proof (Nat.mod_upper_bound i 2). repeat split; try lra; try lia.
    apply Rinv_0_lt_compat, pow_lt. lra. }
  { intros [|q] _; lia. }
  rewrite (C99_training_sets 3 2 (fun _ => [Fin 0]) (fun i => i mod 2)%nat (fun i => INR i + 1) (fun i => / 2 ^ i)
    (fun i => i mod 2)%nat) in H1; try lia; auto.
  2:{ intros i Hi. pose proof (pos_INR i). pose proof (Nat.mod_upper_bound i 2). repeat split; try lra; try lia.
      apply Rinv_0_lt_compat, pow_lt. lra. }
  injection H1 as <-.
  exists (tab 2 (fun q => (map (fun _ => [Fin 0]) (rounds_at 3 (fun i => i mod 2)%nat q),
     map (fun i => Fin ((INR i + 1) / / 2 ^ i)) (rounds_at 3 (fun i => i mod 2)%nat q),
     map (fun i => Z.of_nat (i mod 2)) (rounds_at 3 (fun i => i mod 2)%nat q)))), dist.
  intros r p pos.
  assert (E : nsum (map (fun t => correct_weight (fun _ => Z.of_nat (match fst t with O => 0 | _ => 1 end)) (snd t))
     (combine (seq 0 2) (tab 2 (fun q => (map (fun _ => [Fin 0]) (rounds_at 3 (fun i => i mod 2)%nat q),
     map (fun i => Fin ((INR i + 1) / / 2 ^ i)) (rounds_at 3 (fun i => i mod 2)%nat q),
     map (fun i => Z.of_nat (i mod 2)) (rounds_at 3 (fun i => i mod 2)%nat q)))))) = Fin 17).
  { simpl. f_equal. field. }
  split; [|split; [exact H2|split; [|exact E]]].
  - apply C99_training_sets; try lia; auto. intros i Hi. pose proof (pos_INR i). pose proof (Nat.mod_upper_bound i 2).
    unfold r, p, pos. repeat split; try lra; try lia. apply Rinv_0_lt_compat, pow_lt. lra.
  - assert (Hv : Fin 17 = Fin (INR 3 * v)) by (rewrite <- E; exact H4). injection Hv as Hv. unfold r, p, pos. rewrite H3.
    f_equal. f_equal. lra.
Qed.

(** ** C100: the continuous policy learner *)

Definition fin_space (space : option (R * R)) : option (num * num) :=
  option_map (fun s => (Fin (fst s), Fin (snd s))) space.

(** The loss with pg_method "ipw" or "dr" is minus the Gaussian-kernel IPW or DR estimate of the value of the actions
    predict would return; with "dpg" it is minus the mean modelled reward of those actions. *)
Theorem C100_loss_is_minus_estimate : forall h space l q,
  c_accepted l -> 0 < h ->
  q (pg_predict (fin_space space) (c_chosen l)) = c_model l ->
  let loss m := pg_loss m (Fin h) (fin_space space) q (c_chosen l) (c_logged l) (c_rewards l) (c_pscores l) in
  let a := pg_predict (fin_space space) (c_chosen l) in
  exists v w,
    kipw_value Gaussian (Fin h) (c_rewards l) (c_logged l) (c_pscores l) a = Ok (Fin v) /\
    kdr_value Gaussian (Fin h) (c_model l) (c_rewards l) (c_logged l) (c_pscores l) a = Ok (Fin w) /\
    loss PgIpw = Ok (Fin (- v)) /\ loss PgDr = Ok (Fin (- w)) /\
    loss Dpg = Ok (Fin (- avg (cl_n l) (cl_q l))).
Proof.
  intros h space l q Hl Hh Hq loss a.
  set (cl := fun x => match space with None => x | Some (lo, hi) => Rmin (Rmax x lo) hi end).
  assert (Ha : a = tabF (cl_n l) (fun i => cl (cl_e l i))).
  { unfold a, pg_predict, c_chosen, tabF. rewrite map_tab. apply tab_ext. intros i Hi. unfold clamp, fin_space, cl.
    destruct space as [[lo hi]|]; cbn [option_map fst snd]; auto. rewrite nmax_Fin, nmin_Fin. reflexivity. }
  set (l' := {| cl_n := cl_n l; cl_r := cl_r l; cl_b := cl_b l; cl_e := fun i => cl (cl_e l i); cl_p := cl_p l; cl_q := cl_q l |}).
  assert (Hl' : c_accepted l') by (destruct Hl; constructor; auto).
  assert (Hk : pg_gaussian_kernel = gaussian_kernel).
  { unfold pg_gaussian_kernel, gaussian_kernel. replace (1 / 2) with (/ 2) by lra.
    rewrite Rpower_sqrt. reflexivity. pose proof PI_RGT_0. lra. }
  destruct (C45_kipw_value Gaussian h l' Hl' Hh) as (K1 & _ & E1).
  destruct (C45_kdr_value Gaussian h l' Hl' Hh) as (K2 & _ & E2).
  exists (spec_kipw K1 h l'), (spec_kdr K2 h l'). rewrite Ha.
  split. exact E1. split. exact E2.
  assert (R1 : exists rr, kipw_round Gaussian (Fin h) (c_rewards l) (c_logged l) (c_pscores l) a = Ok rr /\ nmean rr = Fin (spec_kipw K1 h l')).
  { unfold kipw_value, k_value, k_rounds in E1. rewrite (c_check_ok l' None) in E1 by auto. cbn [bind] in E1.
    rewrite Ha. change (tabF (cl_n l) (fun i => cl (cl_e l i))) with (c_chosen l').
    change (c_rewards l) with (c_rewards l'). change (c_logged l) with (c_logged l'). change (c_pscores l) with (c_pscores l').
    destruct (kipw_round _ _ _ _ _ _) as [rr|]; [|discriminate]. exists rr. split; auto. cbn [bind] in E1. congruence. }
  assert (R2 : exists rr, kdr_round Gaussian (Fin h) (c_model l) (c_rewards l) (c_logged l) (c_pscores l) a = Ok rr /\ nmean rr = Fin (spec_kdr K2 h l')).
  { unfold kdr_value, k_value, k_rounds in E2. rewrite (c_check_ok l' (Some (c_model l'))) in E2 by auto. cbn [bind] in E2.
    rewrite Ha. change (tabF (cl_n l) (fun i => cl (cl_e l i))) with (c_chosen l').
    change (c_rewards l) with (c_rewards l'). change (c_logged l) with (c_logged l'). change (c_pscores l) with (c_pscores l').
    change (c_model l) with (c_model l').
    destruct (kdr_round _ _ _ _ _ _ _) as [rr|]; [|discriminate]. exists rr. split; auto. cbn [bind] in E2. congruence. }
  split; [|split].
  - destruct R1 as (rr & R1 & M). unfold loss, pg_loss, pg_arr. rewrite Hk. unfold kipw_round in R1. cbn [kernel_functions] in R1.
    change (map (clamp (fin_space space)) (c_chosen l)) with a. rewrite R1. cbn [bind]. rewrite M. reflexivity.
  - destruct R2 as (rr & R2 & M). unfold loss, pg_loss, pg_arr. rewrite Hk. unfold kdr_round in R2. cbn [kernel_functions] in R2.
    change (map (clamp (fin_space space)) (c_chosen l)) with a. fold a in Hq. rewrite Hq.
    destruct (kernel_arg (Fin h) a (c_logged l)) as [u|]; [|discriminate]. cbn [bind] in *.
    destruct (bcast2 nsub (c_rewards l) (c_model l)) as [d|]; [|discriminate]. cbn [bind] in *.
    destruct (bcast2 nmul (map gaussian_kernel u) d) as [kr|]; [|discriminate]. cbn [bind] in *.
    destruct (bcast2 ndiv kr (c_pscores l)) as [e|]; [|discriminate]. cbn [bind] in *.
    unfold iadd in R2. destruct (_ || _)%bool in R2; [|discriminate]. rewrite R2. cbn [bind]. rewrite M. reflexivity.
  - unfold loss, pg_loss, pg_arr. cbn [bind]. change (map (clamp (fin_space space)) (c_chosen l)) with a. fold a in Hq.
    rewrite Hq. unfold c_model. rewrite nmean_tabF by apply Hl. reflexivity.
Qed.

(** predict stays inside a well-ordered output space, keeps what is already inside, and moves the rest to the
    nearer end; with the bounds in the wrong order every prediction is the second bound. *)
Theorem C100_output_space : forall lo hi y,
  (lo <= hi -> Forall2 (fun x z => exists a, z = Fin a /\ lo <= a <= hi /\
       match x with
       | Fin u => (lo <= u <= hi -> a = u) /\ (u < lo -> a = lo) /\ (hi < u -> a = hi)
       | PInf => a = hi
       | NInf => a = lo
       | NaN => False
       end) (filter (fun x => negb (is_nan x)) y) (pg_predict (Some (Fin lo, Fin hi)) (filter (fun x => negb (is_nan x)) y))) /\
  (hi < lo -> pg_predict (Some (Fin lo, Fin hi)) (filter (fun x => negb (is_nan x)) y)
              = map (fun _ => Fin hi) (filter (fun x => negb (is_nan x)) y)).
Proof.
  intros lo hi y. split; intros H.
  - induction y as [|x y IH]; [constructor|]. simpl. destruct x as [u| | |]; simpl; auto; constructor; auto.
    + rewrite nmax_Fin, nmin_Fin. exists (Rmin (Rmax u lo) hi). split; auto.
      unfold Rmin, Rmax. repeat destruct Rle_dec; repeat split; intros; lra.
    + unfold nmax. simpl. unfold nmin. simpl. exists hi. repeat split; auto; lra.
    + unfold nmax. simpl. rewrite nmin_Fin. exists (Rmin lo hi). unfold Rmin. destruct Rle_dec; repeat split; auto; lra.
  - induction y as [|x y IH]; auto. simpl. destruct x as [u| | |]; simpl; auto; f_equal; auto.
    + rewrite nmax_Fin, nmin_Fin. f_equal. unfold Rmin, Rmax. repeat destruct Rle_dec; lra.
    + unfold nmax. simpl. rewrite nmin_Fin. f_equal. unfold Rmin. destruct Rle_dec; lra.
Qed.

(** Where the network's outputs for a batch lie outside the output space, the loss does not change with the network's
    parameters: training gets no gradient, whatever the method. *)
Theorem C100_no_gradient_outside : forall m h lo hi q n (c : nat -> R -> R) action reward pscore t0,
  (forall i, (i < n)%nat -> continuous (c i) t0 /\ (c i t0 < lo \/ hi < c i t0)) ->
  locally t0 (fun t =>
    pg_loss m h (Some (Fin lo, Fin hi)) q (tabF n (fun i => c i t)) action reward pscore =
    pg_loss m h (Some (Fin lo, Fin hi)) q (tabF n (fun i => c i t0)) action reward pscore).
Proof.
  intros m h lo hi q n c action reward pscore t0 Hc.
  assert (L : locally t0 (fun t => forall i, (i < n)%nat ->
     Rmin (Rmax (c i t) lo) hi = Rmin (Rmax (c i t0) lo) hi)).
  { induction n as [|n IH].
    - apply filter_forall. intros t i Hi. lia.
    - assert (H1 : locally t0 (fun t => Rmin (Rmax (c n t) lo) hi = Rmin (Rmax (c n t0) lo) hi)).
      { destruct (Hc n ltac:(lia)) as [Hcont [Hlo|Hhi]].
        - apply (Hcont (fun y => Rmin (Rmax y lo) hi = Rmin (Rmax (c n t0) lo) hi)).
          apply (filter_imp (fun y => y < lo)).
          + intros y Hy. rewrite !(Rmax_right _ lo) by lra. reflexivity.
          + apply (open_lt lo). exact Hlo.
        - apply (Hcont (fun y => Rmin (Rmax y lo) hi = Rmin (Rmax (c n t0) lo) hi)).
          apply (filter_imp (fun y => hi < y)).
          + intros y Hy. pose proof (Rmax_l y lo). pose proof (Rmax_l (c n t0) lo). rewrite !Rmin_right by lra. reflexivity.
          + apply (open_gt hi). exact Hhi. }
      assert (H2 := IH (fun i Hi => Hc i (Nat.lt_lt_succ_r _ _ Hi))).
      generalize (filter_and _ _ H1 H2). apply filter_imp. intros t [A1 A2] i Hi.
      destruct (Nat.eq_dec i n) as [E|]; [rewrite E; exact A1|]. apply A2. lia. }
  revert L. apply filter_imp. intros t Ht.
  assert (E : map (clamp (Some (Fin lo, Fin hi))) (tabF n (fun i => c i t)) =
              map (clamp (Some (Fin lo, Fin hi))) (tabF n (fun i => c i t0))).
  { unfold tabF. rewrite !map_tab. apply tab_ext. intros i Hi. unfold clamp. rewrite !nmax_Fin, !nmin_Fin. f_equal. auto. }
  unfold pg_loss, pg_arr. rewrite E. reflexivity.
Qed.

Example C100_example : exists v,
  pg_loss PgIpw (Fin 1) (Some (Fin 0, Fin 1)) (fun x => x) [Fin 5] [Fin 1] [Fin 2] [Fin (1 / 2)] = Ok (Fin v) /\
  v = - (4 * K_gaussian 0).
Proof.
  set (l := {| cl_n := 1; cl_r := fun _ => 2; cl_b := fun _ => 1; cl_e := fun _ => 5; cl_p := fun _ => 1 / 2; cl_q := fun _ => 1 |}).
  assert (Hl : c_accepted l) by (constructor; simpl; intros; [lia|lra]).
  destruct (C100_loss_is_minus_estimate 1 (Some (0, 1)) l (fun x => x)) as (v & w & E1 & E2 & E3 & _); auto; try lra.
  { unfold pg_predict, clamp, c_chosen, c_model, l, tabF, tab. simpl. rewrite nmax_Fin, nmin_Fin. f_equal. f_equal.
    unfold Rmin, Rmax. repeat destruct Rle_dec; lra. }
  exists (- v). split. exact E3. f_equal.
  set (l' := {| cl_n := 1; cl_r := fun _ => 2; cl_b := fun _ => 1; cl_e := fun _ => 1; cl_p := fun _ => 1 / 2; cl_q := fun _ => 1 |}).
  assert (Hl' : c_accepted l') by (constructor; simpl; intros; [lia|lra]).
  destruct (C45_kipw_value Gaussian 1 l' Hl' ltac:(lra)) as (K & HK & E).
  replace (pg_predict _ (c_chosen l)) with (c_chosen l') in E1.
  2:{ unfold pg_predict, clamp, c_chosen, l, l', tabF, tab. simpl. rewrite nmax_Fin, nmin_Fin. f_equal. f_equal.
      unfold Rmin, Rmax. repeat destruct Rle_dec; lra. }
  change (c_rewards l) with (c_rewards l') in E1. change (c_logged l) with (c_logged l') in E1.
  change (c_pscores l) with (c_pscores l') in E1. rewrite E in E1. injection E1 as <-.
  assert (K 0 = K_gaussian 0). { specialize (HK 0). rewrite kernel_Fin in HK. injection HK as HK. symmetry. exact HK. }
  unfold spec_kipw, avg, c_weight. cbn [l' cl_n cl_r cl_b cl_e cl_p sumn INR].
  replace ((1 - 1) / 1) with 0 by field. rewrite H. field.
Qed.

Print Assumptions C74_constructor.
Print Assumptions C74_ipw_predict.
Print Assumptions C74_ipw_unknown_label.
Print Assumptions C74_q_predict.
Print Assumptions C74_nn_predict.
Print Assumptions C74_sample_action.
Print Assumptions C74_nn_sample_action.
Print Assumptions C74_predict_proba.
Print Assumptions C74_zero_temperature.
Print Assumptions C74_predict_proba_rejects.
Print Assumptions C74_predict_score.
Print Assumptions C74_missing_class.
Print Assumptions C74_single_class.
Print Assumptions C75_surrogate_gradient.
Print Assumptions C75_loss.
Print Assumptions C75_single_round_batch.
Print Assumptions C75_variance_term_opposes.
Print Assumptions C76_no_stop.
Print Assumptions C76_first_stop.
Print Assumptions C76_every_epoch_steps.
Print Assumptions C76_improving_run.
Print Assumptions C76_rising_run.
Print Assumptions C76_validation_irrelevant.
Print Assumptions C76_split.
Print Assumptions C98_first_position.
Print Assumptions C98_predict_proba_is_sampling_probability.
Print Assumptions C98_nn_sampling_differs.
Print Assumptions C99_training_sets.
Print Assumptions C99_reduction.
Print Assumptions C99_better_classifiers.
Print Assumptions C99_rejects.
Print Assumptions C99_default_propensity.
Print Assumptions C100_loss_is_minus_estimate.
Print Assumptions C100_output_space.
Print Assumptions C100_no_gradient_outside.
