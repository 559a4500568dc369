(** * P_Weights: importance weights from classifiers (C102) and weighted reward models (C104). *)

From Coq Require Import Reals List ZArith Lia Lra Bool.
From Verif Require Import Num NpList M_Utils M_Slate M_Multi M_Feedback M_Offline M_Reg S_Base S_Slate S_Reg L_Num L_Base
  L_Estimators L_Utils L_Slate L_Multi L_Offline L_Reg L_Weights P_Sim P_Reg.
Import ListNotations.
Open Scope R_scope.

(** ** C102: density-ratio weights from a classifier *)

Section DensityRatio.
Context {C : Type} (cfit : C -> list (list num) -> list Z -> res C) (cproba : C -> list (list num) -> res (list (list num)))
  (ctrain : list (list num) -> list Z -> C) (classes : C -> list Z) (proba : C -> list num -> Z -> num)
  (HC : plain_classifier cfit cproba ctrain classes proba).
Variables (m : iw_method) (K L : nat) (ac : nat -> list num) (draw : list (list num) -> res (list Z)) (sm : list (list num) -> list nat)
  (l : rlog) (models : list C) (posarg : option (list Z)).
Hypotheses (HD : plain_draw K draw sm) (HL : (0 < L)%nat) (Hl : iwlog_ok K L l) (Hm : length models = L) (Hq : position_is L l posarg).

Let run (n_folds : Z) (fold : nat -> nat) :=
  iw_fit_predict cfit cproba (mkIw K L (tab K ac) m) draw models (tab (rl_n l) (rl_x l)) (tabZ (rl_n l) (rl_a l))
    (tab3F (rl_n l) K L (rl_pi l)) posarg n_folds fold.

Lemma iw_fit_all idx : positions_covered L l idx ->
  mapM (fun p => match rounds_of l idx p with [] => Err ValueError | _ => Ok (iw_model ctrain m K ac sm l idx p) end) (seq 0 L) =
  Ok (tab L (iw_model ctrain m K ac sm l idx)).
Proof. intros H. apply mapM_Ok. intros p Hp. apply in_seq in Hp. specialize (H p ltac:(lia)). destruct (rounds_of l idx p); congruence. Qed.

Lemma iw_fit_some idx : ~ positions_covered L l idx ->
  mapM (fun p => match rounds_of l idx p with [] => Err ValueError | _ => Ok (iw_model ctrain m K ac sm l idx p) end) (seq 0 L) = Err ValueError.
Proof.
  intros H. apply mapM_Err_some.
  - intros p _. destruct (rounds_of l idx p); eauto.
  - apply Classical_Pred_Type.not_all_ex_not in H as (p & H). assert (Hp : (p < L)%nat) by (apply Classical_Prop.NNPP; tauto).
    exists p. split; [apply in_seq; lia|]. destruct (rounds_of l idx p); auto. exfalso. apply H. intros _. discriminate.
Qed.

(** [fit] trains the classifier of each position on the rounds of that position: every round contributes its logged
    row, labelled 0, and a row of the evaluation policy with the same context, labelled 1.  A position without rounds
    is a ValueError. *)
Theorem C102_training_sets :
  (positions_covered L l (all_rounds (rl_n l)) ->
   iw_fit cfit (mkIw K L (tab K ac) m) draw models (tab (rl_n l) (rl_x l)) (tabZ (rl_n l) (rl_a l)) (tab3F (rl_n l) K L (rl_pi l)) posarg =
   Ok (tab L (iw_model ctrain m K ac sm l (all_rounds (rl_n l))))) /\
  (~ positions_covered L l (all_rounds (rl_n l)) ->
   iw_fit cfit (mkIw K L (tab K ac) m) draw models (tab (rl_n l) (rl_x l)) (tabZ (rl_n l) (rl_a l)) (tab3F (rl_n l) K L (rl_pi l)) posarg =
   Err ValueError).
Proof.
  split; intros H; rewrite (iw_fit_tab cfit cproba ctrain classes proba HC m K L ac draw sm HD) by auto; [apply iw_fit_all|apply iw_fit_some]; auto.
Qed.

Lemma run_head k fold : (1 <= k)%Z ->
  run k fold =
  if Z.eqb k 1 then
    models' <- iw_fit cfit (mkIw K L (tab K ac) m) draw models (tab (rl_n l) (rl_x l)) (tabZ (rl_n l) (rl_a l)) (tab3F (rl_n l) K L (rl_pi l)) (Some (tabZ (rl_n l) (rl_pos l))) ;;
    w <- iw_predict cproba (mkIw K L (tab K ac) m) models' (tab (rl_n l) (rl_x l)) (tabZ (rl_n l) (rl_a l)) (Some (tabZ (rl_n l) (rl_pos l))) ;; Ok (models', w)
  else
    folds <- kfold (rl_n l) (Z.to_nat k) fold ;;
    loopM (fun mw tt =>
      ctx <- take (tab (rl_n l) (rl_x l)) (fst tt) ;; act <- take (tabZ (rl_n l) (rl_a l)) (fst tt) ;;
      q <- take (tabZ (rl_n l) (rl_pos l)) (fst tt) ;; d <- take (tab3F (rl_n l) K L (rl_pi l)) (fst tt) ;;
      models' <- iw_fit cfit (mkIw K L (tab K ac) m) draw (fst mw) ctx act d (Some q) ;;
      ctx' <- take (tab (rl_n l) (rl_x l)) (snd tt) ;; act' <- take (tabZ (rl_n l) (rl_a l)) (snd tt) ;; q' <- take (tabZ (rl_n l) (rl_pos l)) (snd tt) ;;
      w <- iw_predict cproba (mkIw K L (tab K ac) m) models' ctx' act' (Some q') ;;
      filled <- put (snd mw) (snd tt) w ;;
      Ok (models', filled)) folds (models, tab (rl_n l) (fun _ => Fin 0)).
Proof.
  intros Hk. destruct Hl as [H Hpi]. pose proof (co_n _ _ _ H) as Hn.
  assert (HK : (0 < K)%nat) by (pose proof (co_a _ _ _ H 0%nat Hn); lia).
  unfold run, iw_fit_predict. cbn [iw_ac iw_len iw_actions]. rewrite (feedback_ok0 _ K); cbn [bind].
  2: apply H. 2: apply H. 2: destruct Hq as [->|(_ & [->|(_ & q & ->)])]; eauto. 2: apply tab_length.
  rewrite (fit_position_ok L _ _ (rl_pos l) _ l); auto; try apply H. cbn [bind].
  unfold check_scalar_Z. rewrite (proj2 (Z.ltb_ge _ _)) by lia. cbn [raise_if bind].
  rewrite tab_length, shape_is_tab3, allclose_policy by auto. cbn [negb raise_if bind]. rewrite (repeat_tab (Fin 0)). reflexivity.
Qed.

(** One fold: the weight of a round is the odds of label 1 at its logged row. *)
Theorem C102_single_fold fold :
  (positions_covered L l (all_rounds (rl_n l)) ->
   run 1 fold = Ok (tab L (iw_model ctrain m K ac sm l (all_rounds (rl_n l))),
     tab (rl_n l) (fun i => odds (proba (iw_model ctrain m K ac sm l (all_rounds (rl_n l)) (rl_pos l i)) (row_of ac l i (rl_a l i)) 1)))) /\
  (~ positions_covered L l (all_rounds (rl_n l)) -> run 1 fold = Err ValueError).
Proof.
  split; intros H; rewrite run_head by lia; change (Z.eqb 1 1) with true; cbv iota;
    rewrite (iw_fit_tab cfit cproba ctrain classes proba HC m K L ac draw sm HD) by (auto; left; auto).
  - rewrite iw_fit_all by auto. cbn [bind]. rewrite (iw_predict_tab cfit cproba ctrain classes proba HC); auto.
    + intros i Hi. split; apply Hl; auto.
    + intros p Hp. eapply iw_classes; eauto. auto.
  - rewrite iw_fit_some by auto. reflexivity.
Qed.

Let fit (s : list C) (tr : list nat) :=
  ctx <- take (tab (rl_n l) (rl_x l)) tr ;; act <- take (tabZ (rl_n l) (rl_a l)) tr ;;
  q <- take (tabZ (rl_n l) (rl_pos l)) tr ;; d <- take (tab3F (rl_n l) K L (rl_pi l)) tr ;;
  iw_fit cfit (mkIw K L (tab K ac) m) draw s ctx act d (Some q).
Let pred (s : list C) (te : list nat) :=
  ctx <- take (tab (rl_n l) (rl_x l)) te ;; act <- take (tabZ (rl_n l) (rl_a l)) te ;; q <- take (tabZ (rl_n l) (rl_pos l)) te ;;
  iw_predict cproba (mkIw K L (tab K ac) m) s ctx act (Some q).

Lemma run_cross k fold : (2 <= k)%nat -> is_partition (rl_n l) k fold ->
  run (Z.of_nat k) fold =
  loopM (fun mw tt => s' <- fit (fst mw) (fst tt) ;; w <- pred s' (snd tt) ;; v <- put (snd mw) (snd tt) w ;; Ok (s', v))
      (map (fun j => (outside (rl_n l) fold j, inside (rl_n l) fold j)) (seq 0 k)) (models, tab (rl_n l) (fun _ => Fin 0)).
Proof.
  intros Hk Hpart. pose proof (partition_le _ _ _ Hpart) as Hkn. rewrite run_head by lia.
  rewrite (proj2 (Z.eqb_neq _ _)) by lia. unfold kfold. rewrite Nat2Z.id, (proj2 (Nat.ltb_ge _ _)) by auto. cbn [bind].
  apply loopM_ext. intros [s v] tt _. unfold fit, pred. cbn [fst snd].
  destruct (take (tab (rl_n l) (rl_x l)) (fst tt)); [|reflexivity]. cbn [bind].
  destruct (take (tabZ (rl_n l) (rl_a l)) (fst tt)); [|reflexivity]. cbn [bind].
  destruct (take (tabZ (rl_n l) (rl_pos l)) (fst tt)); [|reflexivity]. cbn [bind].
  destruct (take (tab3F (rl_n l) K L (rl_pi l)) (fst tt)); [|reflexivity]. cbn [bind].
  destruct (iw_fit cfit _ draw s _ _ _ _); [|reflexivity]. cbn [bind].
  destruct (take (tab (rl_n l) (rl_x l)) (snd tt)); [|reflexivity]. cbn [bind].
  destruct (take (tabZ (rl_n l) (rl_a l)) (snd tt)); [|reflexivity]. cbn [bind].
  destruct (take (tabZ (rl_n l) (rl_pos l)) (snd tt)); reflexivity.
Qed.

Lemma in_outside fold j i : In i (outside (rl_n l) fold j) -> (i < rl_n l)%nat.
Proof. intros Hi. apply filter_In in Hi as [Hi _]. apply in_seq in Hi. lia. Qed.
Lemma in_inside fold j i : In i (inside (rl_n l) fold j) -> (i < rl_n l)%nat.
Proof. intros Hi. apply filter_In in Hi as [Hi _]. apply in_seq in Hi. lia. Qed.

Lemma fit_fold fold s j : length s = L -> positions_covered L l (outside (rl_n l) fold j) ->
  fit s (outside (rl_n l) fold j) = Ok (tab L (iw_model ctrain m K ac sm l (outside (rl_n l) fold j))).
Proof.
  intros Hs Hcov. unfold fit, tabZ, tab3F. rewrite !take_tab by (apply in_outside). cbn [bind].
  rewrite (iw_fit_map cfit cproba ctrain classes proba HC m K L ac draw sm HD); auto. apply iw_fit_all; auto.
  intros E. specialize (Hcov 0%nat HL). rewrite E in Hcov. apply Hcov. reflexivity. apply in_outside.
Qed.

Let h (s : list C) (i : nat) : num := odds (proba (nth (rl_pos l i) s (ctrain [] [])) (row_of ac l i (rl_a l i)) 1).

Lemma pred_fold fold j : positions_covered L l (outside (rl_n l) fold j) -> positions_covered L l (inside (rl_n l) fold j) ->
  pred (tab L (iw_model ctrain m K ac sm l (outside (rl_n l) fold j))) (inside (rl_n l) fold j) =
  Ok (map (h (tab L (iw_model ctrain m K ac sm l (outside (rl_n l) fold j)))) (inside (rl_n l) fold j)).
Proof.
  intros Hcov Hin. unfold pred, tabZ. rewrite !take_tab by (apply in_inside). cbn [bind].
  etransitivity.
  - apply (iw_predict_map cfit cproba ctrain classes proba HC m K L ac HL l); auto.
    + intros i Hi. split; apply Hl; apply (in_inside fold j); auto.
    + intros p Hp. eapply iw_classes; eauto. auto.
  - f_equal. apply map_ext_in. intros i Hi. unfold h. rewrite nth_tab by (apply Hl; apply (in_inside fold j); auto). reflexivity.
Qed.

(** Several folds: the weight of a round comes from the classifier of its position trained on the rounds outside its
    fold, so the round itself was not used. *)
Theorem C102_cross_fitted k fold : (2 <= k)%nat -> is_partition (rl_n l) k fold ->
  (forall j, (j < k)%nat -> positions_covered L l (outside (rl_n l) fold j)) ->
  (forall j, (j < k)%nat -> positions_covered L l (inside (rl_n l) fold j)) ->
  run (Z.of_nat k) fold =
  Ok (tab L (iw_model ctrain m K ac sm l (outside (rl_n l) fold (k - 1))),
      tab (rl_n l) (fun i => odds (proba (iw_model ctrain m K ac sm l (outside (rl_n l) fold (fold i)) (rl_pos l i)) (row_of ac l i (rl_a l i)) 1))).
Proof.
  intros Hk Hpart Hout Hin. rewrite run_cross by auto.
  rewrite (cross_loop (fun s => length s = L) fit pred (rl_n l) fold (fun idx => tab L (iw_model ctrain m K ac sm l idx)) h); auto.
  - f_equal. f_equal.
    + destruct k; [lia|]. rewrite (seq_S k 0), map_app. cbn [map]. rewrite last_last. replace (S k - 1)%nat with k by lia. reflexivity.
    + apply tab_ext. intros i Hi. rewrite existsb_seq by (apply Hpart; auto). unfold h. rewrite nth_tab by (apply Hl; auto). reflexivity.
  - intros s j Hs Hj. apply in_seq in Hj. apply fit_fold; auto. apply Hout. lia.
  - intros. apply tab_length.
  - intros j Hj. apply in_seq in Hj. apply pred_fold; [apply Hout|apply Hin]; lia.
Qed.

(** A fold without rounds of some position makes the call fail when the classifier rejects empty inputs, as
    scikit-learn's do, although every classifier has been trained. *)
Theorem C102_fold_without_position k fold : (2 <= k)%nat -> is_partition (rl_n l) k fold ->
  (forall mo, cproba mo [] = Err ValueError) ->
  (forall j, (j < k)%nat -> positions_covered L l (outside (rl_n l) fold j)) ->
  (exists j, (j < k)%nat /\ ~ positions_covered L l (inside (rl_n l) fold j)) ->
  run (Z.of_nat k) fold = Err ValueError.
Proof.
  intros Hk Hpart He Hout (j0 & Hj0 & N). rewrite run_cross by auto.
  assert (U : forall j, (j < k)%nat -> ~ positions_covered L l (inside (rl_n l) fold j) ->
    pred (tab L (iw_model ctrain m K ac sm l (outside (rl_n l) fold j))) (inside (rl_n l) fold j) = Err ValueError).
  { intros j Hj Nj. unfold pred, tabZ. rewrite !take_tab by (apply in_inside). cbn [bind].
    apply (iw_predict_uncovered_map cfit cproba ctrain classes proba HC m K L ac HL l); auto.
    - intros i Hi. split; apply Hl; apply (in_inside fold j); auto.
    - intros p Hp. eapply iw_classes; eauto. apply Hout; auto. }
  apply (cross_loop_err (fun s => length s = L) fit pred (rl_n l) fold (fun idx => tab L (iw_model ctrain m K ac sm l idx)) h); auto.
  - intros s j Hs Hj. apply in_seq in Hj. apply fit_fold; auto. apply Hout. lia.
  - intros. apply tab_length.
  - intros j Hj. apply in_seq in Hj. destruct (Classical_Prop.classic (positions_covered L l (inside (rl_n l) fold j))).
    + left. apply pred_fold; auto. apply Hout. lia.
    + right. apply U; auto. lia.
  - exists j0. split; auto. apply in_seq. lia.
Qed.
End DensityRatio.

Lemma odds_Fin c : c <> 1 -> odds (Fin c) = Fin (c / (1 - c)).
Proof. intros H. unfold odds. change (nsub (Fin 1) (Fin c)) with (Fin (1 - c)). apply ndiv_Fin. lra. Qed.

(** A classifier that returns the class posterior gives the ratio of the policies' probabilities. *)
Theorem C102_posterior_odds pe pb : 0 <= pe -> 0 < pb -> odds (Fin (pe / (pe + pb))) = Fin (pe / pb).
Proof.
  intros He Hb. rewrite odds_Fin.
  - f_equal. field. lra.
  - intros E. assert (pe = pe + pb); [|lra]. rewrite <- (Rmult_1_l (pe + pb)), <- E. field. lra.
Qed.

(** A row the classifier is certain about gets an infinite weight. *)
Theorem C102_certain : odds (Fin 1) = PInf.
Proof.
  unfold odds. change (nsub (Fin 1) (Fin 1)) with (Fin (1 - 1)). unfold ndiv, inf_sign, Reqb, Rltb.
  destruct (Req_EM_T (1 - 1) 0); [|lra]. destruct (Rlt_dec 0 1); [reflexivity|lra].
Qed.

(** *** Classifiers that fit their training set as well as possible *)

Lemma brier_change f x0 v X y :
  brier (fun x => if list_eq_dec num_dec x x0 then v else f x) X y =
  brier f X y + fold_right (fun xy acc => (if list_eq_dec num_dec (fst xy) x0 then (IZR (snd xy) - v) * (IZR (snd xy) - v) - (IZR (snd xy) - f x0) * (IZR (snd xy) - f x0) else 0) + acc) 0 (combine X y).
Proof.
  unfold brier. induction (combine X y) as [|[x z] r IH]; simpl; [lra|]. rewrite IH. destruct (list_eq_dec num_dec x x0) as [->|]; lra.
Qed.
Lemma change_zero (d : Z -> R) x0 (b : Z) X : fold_right (fun xy acc => (if list_eq_dec num_dec (fst xy) x0 then d (snd xy) else 0) + acc) 0 (combine X (repeat b (length X))) =
  occurrences x0 X * d b.
Proof.
  unfold occurrences. induction X as [|x X IH]; cbn [length repeat combine fold_right count_occ fst snd]; [simpl; lra|]. rewrite IH.
  destruct (list_eq_dec num_dec x x0); [rewrite S_INR|]; lra.
Qed.

(** The squared error of a probability model on logged rows (label 0) and policy rows (label 1) is smallest at the
    fraction of policy rows among equal rows. *)
Lemma brier_minimal f A B x0 : (forall g, brier f (A ++ B) (repeat 0%Z (length A) ++ repeat 1%Z (length B)) <= brier g (A ++ B) (repeat 0%Z (length A) ++ repeat 1%Z (length B))) ->
  0 < occurrences x0 A -> f x0 = occurrences x0 B / (occurrences x0 A + occurrences x0 B).
Proof.
  intros H Ha. assert (Hb : 0 <= occurrences x0 B) by apply pos_INR.
  set (a := occurrences x0 A) in *. set (b := occurrences x0 B) in *. set (v := b / (a + b)).
  specialize (H (fun x => if list_eq_dec num_dec x x0 then v else f x)). rewrite brier_change in H.
  assert (E : combine (A ++ B) (repeat 0%Z (length A) ++ repeat 1%Z (length B)) = combine A (repeat 0%Z (length A)) ++ combine B (repeat 1%Z (length B))).
  { clear. induction A; simpl; congruence. }
  rewrite E, fold_right_app in H.
  assert (S : forall (g : list num * Z -> R) l r, fold_right (fun xy acc => g xy + acc) r l = fold_right (fun xy acc => g xy + acc) 0 l + r).
  { clear. induction l; intros; simpl; [lra|]. rewrite (IHl r). lra. }
  rewrite (S (fun xy => if list_eq_dec num_dec (fst xy) x0 then (IZR (snd xy) - v) * (IZR (snd xy) - v) - (IZR (snd xy) - f x0) * (IZR (snd xy) - f x0) else 0) (combine A (repeat 0%Z (length A)))) in H.
  rewrite !(change_zero (fun z => (IZR z - v) * (IZR z - v) - (IZR z - f x0) * (IZR z - f x0))) in H. fold a b in H.
  assert (V : (a + b) * v = b) by (unfold v; field; lra).
  assert (Q : (a + b) * ((f x0 - v) * (f x0 - v)) <= 0).
  { assert (Ev : (a + b) * ((f x0 - v) * (f x0 - v)) = (a + b) * f x0 * f x0 - 2 * f x0 * ((a + b) * v) + v * ((a + b) * v)) by ring. rewrite Ev, V. 
    assert (Ew : a * ((0 - v) * (0 - v) - (0 - f x0) * (0 - f x0)) + (b * ((1 - v) * (1 - v) - (1 - f x0) * (1 - f x0))) = v * ((a + b) * v) - 2 * b * v - (a + b) * f x0 * f x0 + 2 * b * f x0) by ring.
    rewrite V in Ew. lra. }
  assert (0 <= (f x0 - v) * (f x0 - v)) by apply Rle_0_sqr. assert ((f x0 - v) * (f x0 - v) = 0) by nra.
  apply Rmult_integral in H1 as [H1|H1]; lra.
Qed.

(** If the classifier of a round's position has the smallest possible squared error on its training set, the round's
    weight is the number of policy rows equal to its logged row, over the number of logged rows equal to it. *)
Theorem C102_saturated {C} cfit cproba (ctrain : list (list num) -> list Z -> C) classes proba m K L ac draw sm l models posarg fold ms w i (f : list num -> R) :
  plain_classifier cfit cproba ctrain classes proba -> plain_draw K draw sm -> (0 < L)%nat -> iwlog_ok K L l -> length models = L -> position_is L l posarg ->
  iw_fit_predict cfit cproba (mkIw K L (tab K ac) m) draw models (tab (rl_n l) (rl_x l)) (tabZ (rl_n l) (rl_a l))
    (tab3F (rl_n l) K L (rl_pi l)) posarg 1 fold = Ok (ms, w) ->
  (i < rl_n l)%nat ->
  let logged := map (fun i => row_of ac l i (rl_a l i)) (rounds_of l (all_rounds (rl_n l)) (rl_pos l i)) in
  let sampled := policy_side m K ac sm l (all_rounds (rl_n l)) (rl_pos l i) in
  (forall x, proba (iw_model ctrain m K ac sm l (all_rounds (rl_n l)) (rl_pos l i)) x 1%Z = Fin (f x)) ->
  (forall g, brier f (logged ++ sampled) (repeat 0%Z (length logged) ++ repeat 1%Z (length sampled)) <=
             brier g (logged ++ sampled) (repeat 0%Z (length logged) ++ repeat 1%Z (length sampled))) ->
  nth i w NaN = Fin (occurrences (row_of ac l i (rl_a l i)) sampled / occurrences (row_of ac l i (rl_a l i)) logged).
Proof.
  intros HC HD HL Hl Hm Hq Hrun Hi logged sampled Hf Hmin.
  destruct (C102_single_fold cfit cproba ctrain classes proba HC m K L ac draw sm l models posarg HD HL Hl Hm Hq fold) as [Hok Hno].
  destruct (Classical_Prop.classic (positions_covered L l (all_rounds (rl_n l)))) as [Hc|Hc]; [|rewrite Hno in Hrun by auto; discriminate].
  rewrite (Hok Hc) in Hrun. injection Hrun as _ <-. rewrite nth_tab by auto. rewrite Hf.
  assert (Ha : 0 < occurrences (row_of ac l i (rl_a l i)) logged).
  { unfold occurrences. apply lt_0_INR. apply count_occ_In. unfold logged. apply (in_map (fun i => row_of ac l i (rl_a l i))).
    apply filter_In. split; [apply in_seq; lia|apply Nat.eqb_refl]. }
  rewrite (brier_minimal f logged sampled _ Hmin Ha).
  rewrite Rplus_comm. apply C102_posterior_odds; auto. apply pos_INR.
Qed.

Lemma app_eq_tail {A} (a b c d : list A) : length b = length d -> a ++ b = c ++ d -> b = d.
Proof.
  intros H E. assert (length a = length c) by (apply (f_equal (@length A)) in E; rewrite !app_length in E; lia).
  revert c H0 E. induction a as [|x a IH]; intros [|y c] Hl E; simpl in *; try lia; auto. injection E as _ E. apply (IH c); auto.
Qed.

(** With the 'raw' method the policy rows carry the policy's probabilities where the logged rows carry a one-hot
    action.  If no evaluation policy at the round's position is one-hot at the logged action the two kinds of rows
    never coincide, and the best classifier gives the round weight 0 whatever the policy's probability of the action. *)
Theorem C102_raw_stochastic_policy {C} cfit cproba (ctrain : list (list num) -> list Z -> C) classes proba K L draw sm l models posarg fold ms w i (f : list num -> R) :
  let ac := fun a => tabF K (fun b => if Nat.eqb a b then 1 else 0) in
  plain_classifier cfit cproba ctrain classes proba -> plain_draw K draw sm -> (0 < L)%nat -> iwlog_ok K L l -> length models = L -> position_is L l posarg ->
  iw_fit_predict cfit cproba (mkIw K L (tab K ac) Raw) draw models (tab (rl_n l) (rl_x l)) (tabZ (rl_n l) (rl_a l))
    (tab3F (rl_n l) K L (rl_pi l)) posarg 1 fold = Ok (ms, w) ->
  (i < rl_n l)%nat ->
  let logged := map (fun i => row_of ac l i (rl_a l i)) (rounds_of l (all_rounds (rl_n l)) (rl_pos l i)) in
  let sampled := policy_side Raw K ac sm l (all_rounds (rl_n l)) (rl_pos l i) in
  (forall x, proba (iw_model ctrain Raw K ac sm l (all_rounds (rl_n l)) (rl_pos l i)) x 1%Z = Fin (f x)) ->
  (forall g, brier f (logged ++ sampled) (repeat 0%Z (length logged) ++ repeat 1%Z (length sampled)) <=
             brier g (logged ++ sampled) (repeat 0%Z (length logged) ++ repeat 1%Z (length sampled))) ->
  (forall j, (j < rl_n l)%nat -> rl_pos l j = rl_pos l i -> rl_pi l j (rl_a l i) (rl_pos l i) <> 1) ->
  nth i w NaN = Fin 0.
Proof.
  intros ac HC HD HL Hl Hm Hq Hrun Hi logged sampled Hf Hmin Hst.
  rewrite (C102_saturated cfit cproba ctrain classes proba Raw K L ac draw sm l models posarg fold ms w i f HC HD HL Hl Hm Hq Hrun Hi Hf Hmin).
  replace (occurrences (row_of ac l i (rl_a l i)) (policy_side Raw K ac sm l (all_rounds (rl_n l)) (rl_pos l i))) with 0.
  - f_equal. unfold Rdiv. ring.
  - unfold occurrences. symmetry. change 0 with (INR 0). f_equal. apply count_occ_not_In. unfold policy_side. intros H.
    apply in_map_iff in H as (j & E & Hj). apply filter_In in Hj as [Hj Ej]. apply in_seq in Hj. apply Nat.eqb_eq in Ej.
    unfold row_of in E. apply app_eq_tail in E; [|unfold policy_row, ac, tabF; rewrite !tab_length; reflexivity].
    apply (Hst j); [lia|auto|]. unfold policy_row, ac, tabF in E.
    assert (Ha : (rl_a l i < K)%nat) by (apply Hl; auto).
    apply (f_equal (fun v => nth (rl_a l i) v NaN)) in E. rewrite !nth_tab in E by auto. injection E as E. rewrite E. rewrite Nat.eqb_refl. reflexivity.
Qed.

(** Two rounds with the same context, logged actions 0 and 1, an evaluation policy that always takes action 0: the best
    classifier gives probability 2/3 to the row of action 0 and 0 to that of action 1, hence the weights 2 and 0. *)
Definition w_ac (a : nat) : list num := tabF 2 (fun b => if Nat.eqb a b then 1 else 0).
Definition w_log (pi : nat -> R) : rlog := mkLog 2 (fun _ => [Fin 0]) (fun i => i) (fun _ => Fin 0) (fun _ => 1) (fun _ => 0%nat) (fun _ a _ => pi a).
Definition w_best (x : list num) : R := if list_eq_dec num_dec x ([Fin 0] ++ w_ac 0) then 2 / 3 else 0.
Definition w_fit (m : list Z) (X : list (list num)) (y : list Z) : res (list Z) := Ok y.
Definition w_prob (m : list Z) (x : list num) (c : Z) : num := if Z.eqb c 1 then Fin (w_best x) else Fin (1 - w_best x).
Definition w_proba (m : list Z) (X : list (list num)) : res (list (list num)) := Ok (map (fun x => map (w_prob m x) (np_unique m)) X).
Definition w_draw (d : list (list num)) : res (list Z) := Ok (map (fun _ => 0%Z) d).

Example C102_ex : let l := w_log (fun a => if Nat.eqb a 0 then 1 else 0) in
  plain_classifier w_fit w_proba (fun _ y => y) np_unique w_prob /\ plain_draw 2 w_draw (map (fun _ => 0%nat)) /\
  iwlog_ok 2 1 l /\ position_is 1 l None /\
  (let logged := map (fun i => row_of w_ac l i (rl_a l i)) [0; 1]%nat in
   let sampled := policy_side Sample 2 w_ac (map (fun _ => 0%nat)) l [0; 1]%nat 0 in
   sampled = [[Fin 0] ++ w_ac 0; [Fin 0] ++ w_ac 0] /\
   forall g, brier w_best (logged ++ sampled) [0; 0; 1; 1]%Z <= brier g (logged ++ sampled) [0; 0; 1; 1]%Z) /\
  exists ms, iw_fit_predict w_fit w_proba (mkIw 2 1 (tab 2 w_ac) Sample) w_draw [[]] (tab 2 (rl_x l)) (tabZ 2 (rl_a l))
    (tab3F 2 2 1 (rl_pi l)) None 1 (fun _ => 0%nat) = Ok (ms, [Fin 2; Fin 0]).
Proof.
  intros l.
  assert (HC : plain_classifier w_fit w_proba (fun _ y => y) np_unique w_prob).
  { split; [reflexivity|]. split; [|reflexivity]. destruct freq_plain as (_ & Hs & _). apply Hs. }
  assert (HD : plain_draw 2 w_draw (map (fun _ => 0%nat))).
  { intros d _. split; [|split]. unfold w_draw. rewrite map_map. reflexivity. apply map_length.
    intros a Ha. apply in_map_iff in Ha as (? & <- & _). lia. }
  assert (Hl : iwlog_ok 2 1 l). { split; [split; simpl; intros; lia|]. intros i p _ _. cbn. unfold sumn. simpl. lra. }
  assert (Hq : position_is 1 l None) by (right; split; [reflexivity|left; reflexivity]).
  assert (B0 : w_best ([Fin 0] ++ w_ac 0) = 2 / 3) by (unfold w_best; destruct (list_eq_dec num_dec ([Fin 0] ++ w_ac 0) ([Fin 0] ++ w_ac 0)); congruence).
  assert (B1 : w_best ([Fin 0] ++ w_ac 1) = 0).
  { unfold w_best. destruct (list_eq_dec num_dec ([Fin 0] ++ w_ac 1) ([Fin 0] ++ w_ac 0)) as [E|]; auto. cbn in E. injection E as E1 _. lra. }
  split; [auto|]. split; [auto|]. split; [auto|]. split; [auto|]. split.
  - split; [reflexivity|]. intros g. change (policy_side Sample 2 w_ac (map (fun _ => 0%nat)) l [0; 1]%nat 0) with [[Fin 0] ++ w_ac 0; [Fin 0] ++ w_ac 0].
    unfold brier. cbn [map app combine fold_right fst snd]. change (row_of w_ac l 0 (rl_a l 0)) with ([Fin 0] ++ w_ac 0). change (row_of w_ac l 1 (rl_a l 1)) with ([Fin 0] ++ w_ac 1).
    change (Fin 0 :: w_ac 0) with ([Fin 0] ++ w_ac 0). rewrite B0, B1.
    generalize (g ([Fin 0] ++ w_ac 0)) as u, (g ([Fin 0] ++ w_ac 1)) as v. intros u v.
    assert (0 <= (u - 2 / 3) * (u - 2 / 3)) by apply Rle_0_sqr. assert (0 <= v * v) by apply Rle_0_sqr. nra.
  - eexists. change 2%nat with (rl_n l) at 2 3 4.
    etransitivity. apply (proj1 (C102_single_fold w_fit w_proba (fun _ y => y) np_unique w_prob HC Sample 2 1 w_ac w_draw _ l [[]] None HD ltac:(lia) Hl eq_refl Hq (fun _ => 0%nat))).
    + intros p Hp. replace p with 0%nat by lia. discriminate.
    + f_equal. f_equal. change (rl_n l) with 2%nat. unfold tab. cbn [seq map]. unfold w_prob. cbn [Z.eqb Pos.eqb].
      change (row_of w_ac l 0 (rl_a l 0)) with ([Fin 0] ++ w_ac 0). change (row_of w_ac l 1 (rl_a l 1)) with ([Fin 0] ++ w_ac 1). rewrite B0, B1.
      rewrite !odds_Fin by lra. do 2 f_equal; [f_equal; lra|]. f_equal. f_equal. lra.
Qed.

Print Assumptions C102_training_sets.
Print Assumptions C102_single_fold.
Print Assumptions C102_cross_fitted.
Print Assumptions C102_fold_without_position.
Print Assumptions C102_posterior_odds.
Print Assumptions C102_certain.
Print Assumptions C102_saturated.
Print Assumptions C102_raw_stochastic_policy.
