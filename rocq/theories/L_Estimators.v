(** * L_Estimators: refinement of the estimator programs to the specification. *)

From Coq Require Import Reals List ZArith Bool Lia Lra.
From Verif Require Import Num NpList M_Utils M_Estimators S_Base S_Estimators L_Num L_Base.
Import ListNotations.
Open Scope R_scope.

Lemma tol_lt1 : 0 < tol < 1.
Proof. unfold tol; lra. Qed.

Lemma acc_K l : accepted l -> (0 < lg_K l)%nat.
Proof. intros [Hn Ha _ _ _]. specialize (Ha 0%nat Hn). lia. Qed.

Lemma acc_sum_pos l i s : accepted l -> (i < lg_n l)%nat -> (s < lg_L l)%nat ->
  0 < sumn (lg_K l) (fun a => lg_pi l i a s).
Proof.
  intros H Hi Hs. pose proof (acc_pi l H i s Hi Hs) as H'. pose proof tol_lt1.
  unfold Rabs in H'; destruct (Rcase_abs _) in H'; lra.
Qed.

Lemma default_position_ok l arg : accepted l -> position_arg l arg ->
  default_position (policy l) arg = positions l.
Proof.
  intros H [->|(-> & _ & Hp)]; auto. unfold default_position, policy, positions, tab3F, zzeros.
  rewrite tab_length. unfold tabZ. transitivity (tab (lg_n l) (fun _ => 0%Z)).
  - generalize (lg_n l). intros n. induction n; auto. rewrite tab_S_first. simpl. f_equal. auto.
  - apply tab_ext. intros i Hi. rewrite Hp by auto. reflexivity.
Qed.

Lemma allclose_ok l : accepted l -> allclose1 (sum_axis1 (policy l)) = true.
Proof.
  intros H. pose proof (acc_n l H). pose proof (acc_K l H).
  unfold policy. rewrite sum_axis1_tab by auto. unfold allclose1, tab2F.
  apply forallb_tab. intros i Hi. unfold tabF. apply forallb_tab. intros s Hs.
  unfold isclose1. apply Rleb_true. pose proof (acc_pi l H i s Hi Hs) as H'. unfold tol in H'. lra.
Qed.

Lemma check_ok l arg psopt qopt :
  accepted l -> position_arg l arg ->
  (psopt = None \/ psopt = Some (pscores l)) -> (qopt = None \/ qopt = Some (model l)) ->
  check_ope_inputs (policy l) arg (Some (actions l)) (Some (rewards l)) psopt qopt None = Ok tt.
Proof.
  intros H Harg Hps Hq. pose proof (acc_n l H) as Hn. pose proof (acc_K l H) as HK.
  unfold check_ope_inputs. rewrite allclose_ok by auto. cbn [negb raise_if bind].
  assert (Hd1 : dim1 (policy l) = lg_K l) by (apply dim1_tab3; auto).
  assert (Hd2 : dim2 (policy l) = lg_L l) by (apply dim2_tab3; auto).
  rewrite Hd1, Hd2.
  replace (match arg with Some p => _ | None => _ end) with (Ok tt).
  2:{ destruct Harg as [->|(-> & HL & _)].
      - unfold positions, policy, tab3F. unfold tabZ at 1. rewrite !tab_length, Nat.eqb_refl.
        cbn [negb raise_if bind].
        destruct (zminl_tab (lg_n l) (lg_pos l) Hn) as (z & Hz & Hz0).
        rewrite Hz. cbn [bind].
        apply Z.leb_le in Hz0. rewrite Hz0. cbn [negb raise_if bind].
        destruct (zmaxl_tab (lg_n l) (lg_pos l) (lg_L l) Hn (acc_pos l H)) as (z' & Hz' & Hlt).
        rewrite Hz'. cbn [bind]. apply Z.leb_gt in Hlt. rewrite Hlt. reflexivity.
      - rewrite HL. reflexivity. }
  cbn [bind].
  replace (match qopt with Some q => _ | None => _ end) with (Ok tt).
  2:{ destruct Hq as [->| ->]; auto. unfold shape_eqb, model. rewrite dim1_tab3, dim2_tab3 by auto.
      rewrite Hd1, Hd2. unfold policy, tab3F. rewrite !tab_length, !Nat.eqb_refl. reflexivity. }
  cbn [bind].
  replace (Nat.eqb (length (actions l)) (length (rewards l))) with true.
  2:{ unfold actions, rewards, tabZ, tabF. rewrite !tab_length, Nat.eqb_refl. reflexivity. }
  cbn [negb raise_if bind].
  destruct (zminl_tab (lg_n l) (lg_a l) Hn) as (z & Hz & Hz0).
  unfold actions at 1. rewrite Hz. cbn [bind]. apply Z.leb_le in Hz0. rewrite Hz0. cbn [negb raise_if bind].
  destruct (zmaxl_tab (lg_n l) (lg_a l) (lg_K l) Hn (acc_a l H)) as (z' & Hz' & Hlt).
  unfold actions at 1. rewrite Hz'. cbn [bind]. apply Z.ltb_lt in Hlt. rewrite Hlt. cbn [negb raise_if bind].
  destruct Hps as [->| ->]; auto.
  replace (Nat.eqb (length (rewards l)) (length (pscores l))) with true.
  2:{ unfold pscores, rewards, tabZ, tabF. rewrite !tab_length, Nat.eqb_refl. reflexivity. }
  cbn [negb raise_if bind andb].
  unfold any_le0, pscores, tabF. rewrite existsb_tab_false; auto.
  intros i Hi. simpl. apply Rleb_false. apply (acc_p l H); auto.
Qed.

Lemma check_dm_ok l arg :
  accepted l -> position_arg l arg ->
  check_ope_inputs (policy l) arg None None None (Some (model l)) None = Ok tt.
Proof.
  intros H Harg. pose proof (check_ok l arg None (Some (model l)) H Harg (or_introl eq_refl) (or_intror eq_refl)) as HC.
  unfold check_ope_inputs in *.
  apply bind_Ok in HC as ([] & -> & HC). cbn [bind] in *.
  apply bind_Ok in HC as ([] & -> & HC). cbn [bind] in *.
  apply bind_Ok in HC as ([] & -> & HC). reflexivity.
Qed.

Lemma weights_ok l : accepted l ->
  importance_weights (policy l) (actions l) (positions l) (pscores l)
  = Ok (tabF (lg_n l) (weight l)).
Proof.
  intros H. unfold importance_weights, policy, actions at 1, positions, tabZ at 1.
  rewrite tab_length. unfold actions. rewrite fancy3_tab by (apply H). cbn [bind].
  unfold tabF at 1, pscores, tabF at 1. rewrite bcast2_tab. f_equal. apply tab_ext.
  intros i Hi. rewrite ndiv_Fin; auto. pose proof (acc_p l H i Hi); lra.
Qed.

Lemma q_factual_ok l : accepted l ->
  q_factual (model l) (actions l) (positions l) = Ok (tabF (lg_n l) (q_at l)).
Proof.
  intros H. unfold q_factual, model, actions at 1, positions, tabZ at 1.
  rewrite tab_length. unfold actions. rewrite fancy3_tab by (apply H). reflexivity.
Qed.

Lemma baseline_ok l : accepted l ->
  dm_baseline (policy l) (model l) (lg_n l) (positions l) = Ok (tabF (lg_n l) (q_pi l)).
Proof.
  intros H. unfold dm_baseline, policy, model, positions.
  rewrite !fancy3_row_tab by (apply H). cbn [bind].
  rewrite np_average_axis1_tab. reflexivity.
  intros i Hi. pose proof (acc_sum_pos l i (lg_pos l i) H Hi (acc_pos l H i Hi)). lra.
Qed.

Lemma len_actions l : length (actions l) = lg_n l.
Proof. unfold actions, tabZ. apply tab_length. Qed.
Lemma len_positions l : length (positions l) = lg_n l.
Proof. unfold positions, tabZ. apply tab_length. Qed.
Lemma len_rewards l : length (rewards l) = lg_n l.
Proof. unfold rewards, tabF. apply tab_length. Qed.

Lemma bcast2_tabF (f : num -> num -> num) (g : R -> R -> R) n a b :
  (forall i, (i < n)%nat -> f (Fin (a i)) (Fin (b i)) = Fin (g (a i) (b i))) ->
  bcast2 f (tabF n a) (tabF n b) = Ok (tabF n (fun i => g (a i) (b i))).
Proof. intros H. unfold tabF. rewrite bcast2_tab. f_equal. apply tab_ext. auto. Qed.

Lemma map_tabF (f : num -> num) (g : R -> R) n a :
  (forall i, (i < n)%nat -> f (Fin (a i)) = Fin (g (a i))) ->
  map f (tabF n a) = tabF n (fun i => g (a i)).
Proof. intros H. unfold tabF. rewrite map_tab. apply tab_ext. auto. Qed.

Lemma iadd_tabF n a b : iadd (tabF n a) (tabF n b) = Ok (tabF n (fun i => a i + b i)).
Proof.
  unfold iadd. unfold tabF at 1 2. rewrite !tab_length, Nat.eqb_refl. cbn [orb].
  apply (bcast2_tabF nadd Rplus). reflexivity.
Qed.

Lemma clip_num lam w : nmin (Fin w) (lam_num lam) = Fin (clip lam w).
Proof. destruct lam; simpl. apply nmin_Fin. reflexivity. Qed.

(** ** Round-wise rewards *)

Lemma ipw_round_ok lam l : accepted l ->
  ipw_round (lam_num lam) (rewards l) (actions l) (pscores l) (policy l) (positions l)
  = Ok (tabF (lg_n l) (fun i => lg_r l i * clip lam (weight l i))).
Proof.
  intros H. unfold ipw_round. rewrite weights_ok by auto. cbn [bind].
  rewrite (map_tabF _ (clip lam)) by (intros; apply clip_num).
  unfold rewards. apply (bcast2_tabF nmul Rmult). reflexivity.
Qed.

Lemma snipw_round_ok l : accepted l -> sumn (lg_n l) (weight l) <> 0 ->
  snipw_round (rewards l) (actions l) (pscores l) (policy l) (positions l)
  = Ok (tabF (lg_n l) (fun i => lg_r l i * weight l i / avg (lg_n l) (weight l))).
Proof.
  intros H Hs. unfold snipw_round. rewrite weights_ok by auto. cbn [bind].
  unfold rewards. rewrite (bcast2_tabF nmul Rmult) by reflexivity. cbn [bind].
  rewrite nmean_tabF by (apply H). f_equal.
  rewrite (map_tabF _ (fun x => x / avg (lg_n l) (weight l))); auto.
  intros. apply ndiv_Fin. unfold avg. pose proof (INR_pos _ (acc_n l H)).
  intros E. apply Hs. apply (Rmult_eq_reg_r (/ INR (lg_n l))).
  2:{ apply Rinv_neq_0_compat; lra. } rewrite Rmult_0_l. exact E.
Qed.

Lemma dm_round_ok l : accepted l ->
  dm_round (policy l) (model l) (positions l) = Ok (tabF (lg_n l) (q_pi l)).
Proof. intros. unfold dm_round. rewrite len_positions. apply baseline_ok; auto. Qed.

(** The common tail of all DR variants, for transformed weights [what]. *)
Lemma dr_tail l (what : nat -> R) : accepted l ->
  (qf <- q_factual (model l) (actions l) (positions l) ;;
   est <- dm_baseline (policy l) (model l) (length (actions l)) (positions l) ;;
   resid <- bcast2 nsub (rewards l) qf ;;
   corr <- bcast2 nmul (tabF (lg_n l) what) resid ;;
   iadd est corr)
  = Ok (tabF (lg_n l) (fun i => q_pi l i + what i * (lg_r l i - q_at l i))).
Proof.
  intros H. rewrite q_factual_ok, len_actions, baseline_ok by auto. cbn [bind].
  unfold rewards. rewrite (bcast2_tabF nsub Rminus) by reflexivity. cbn [bind].
  rewrite (bcast2_tabF nmul Rmult) by reflexivity. cbn [bind].
  apply iadd_tabF.
Qed.

Lemma dr_round_ok lam l : accepted l ->
  dr_round (lam_num lam) (rewards l) (actions l) (pscores l) (policy l) (model l) (positions l)
  = Ok (tabF (lg_n l) (fun i => q_pi l i + clip lam (weight l i) * (lg_r l i - q_at l i))).
Proof.
  intros H. unfold dr_round. rewrite weights_ok by auto. cbn [bind].
  rewrite (map_tabF _ (clip lam)) by (intros; apply clip_num).
  apply dr_tail; auto.
Qed.

Lemma sndr_round_ok l : accepted l -> sumn (lg_n l) (weight l) <> 0 ->
  sndr_round (rewards l) (actions l) (pscores l) (policy l) (model l) (positions l)
  = Ok (tabF (lg_n l) (fun i => q_pi l i
          + weight l i * (lg_r l i - q_at l i) / avg (lg_n l) (weight l))).
Proof.
  intros H Hs. unfold sndr_round. rewrite weights_ok by auto. cbn [bind].
  rewrite q_factual_ok, len_actions, baseline_ok by auto. cbn [bind].
  unfold rewards. rewrite (bcast2_tabF nsub Rminus) by reflexivity. cbn [bind].
  rewrite (bcast2_tabF nmul Rmult) by reflexivity. cbn [bind].
  rewrite nmean_tabF by (apply H).
  rewrite (map_tabF _ (fun x => x / avg (lg_n l) (weight l))).
  2:{ intros. apply ndiv_Fin. unfold avg. pose proof (INR_pos _ (acc_n l H)).
      intros E. apply Hs. apply (Rmult_eq_reg_r (/ INR (lg_n l))).
      2:{ apply Rinv_neq_0_compat; lra. } rewrite Rmult_0_l. exact E. }
  apply iadd_tabF.
Qed.

Definition switch_w (lam : option R) (w : R) : R :=
  match lam with Some x => if Rle_dec w x then w else 0 | None => w end.

Lemma switch_round_ok lam l : accepted l ->
  switch_round (lam_num lam) (rewards l) (actions l) (pscores l) (policy l) (model l) (positions l)
  = Ok (tabF (lg_n l) (fun i => q_pi l i + switch_w lam (weight l i) * (lg_r l i - q_at l i))).
Proof.
  intros H. unfold switch_round. rewrite weights_ok by auto. cbn [bind].
  rewrite (map_tabF _ (fun w => if nle (Fin w) (lam_num lam) then 1 else 0)) by reflexivity.
  rewrite q_factual_ok, len_actions, baseline_ok by auto. cbn [bind].
  rewrite (bcast2_tabF nmul Rmult) by reflexivity. cbn [bind].
  unfold rewards. rewrite (bcast2_tabF nsub Rminus) by reflexivity. cbn [bind].
  rewrite (bcast2_tabF nmul Rmult) by reflexivity. cbn [bind].
  rewrite iadd_tabF. f_equal. unfold tabF. apply tab_ext. intros i Hi. do 2 f_equal. f_equal.
  unfold switch_w. destruct lam; simpl; [|lra].
  unfold Rleb. destruct (Rle_dec (weight l i) r); lra.
Qed.

Lemma os_weight_inf w : os_weight PInf w = w.
Proof. reflexivity. Qed.

Lemma os_weight_Fin lam w : w * w + lam <> 0 -> os_weight (Fin lam) (Fin w) = Fin (os_shrink lam w).
Proof. intros H. unfold os_weight. simpl nlt. cbn iota. unfold nsqr. simpl nmul. simpl nadd.
  rewrite ndiv_Fin by auto. reflexivity. Qed.

Lemma dros_round_inf l : accepted l ->
  dros_round PInf (rewards l) (actions l) (pscores l) (policy l) (model l) (positions l)
  = Ok (tabF (lg_n l) (fun i => q_pi l i + weight l i * (lg_r l i - q_at l i))).
Proof.
  intros H. unfold dros_round. rewrite weights_ok by auto. cbn [bind].
  rewrite (map_tabF _ (fun w => w)) by reflexivity. apply dr_tail; auto.
Qed.

Lemma dros_round_ok lam l : accepted l ->
  (forall i, (i < lg_n l)%nat -> weight l i * weight l i + lam <> 0) ->
  dros_round (Fin lam) (rewards l) (actions l) (pscores l) (policy l) (model l) (positions l)
  = Ok (tabF (lg_n l) (fun i => q_pi l i + os_shrink lam (weight l i) * (lg_r l i - q_at l i))).
Proof.
  intros H Hd. unfold dros_round. rewrite weights_ok by auto. cbn [bind].
  rewrite (map_tabF _ (os_shrink lam)) by (intros; apply os_weight_Fin; auto).
  apply dr_tail; auto.
Qed.

Lemma sg_weight_Fin lam w : 1 - lam + lam * w <> 0 ->
  sg_weight (Fin lam) (Fin w) = Fin (sg_shrink lam w).
Proof.
  intros H. unfold sg_weight. cbn [nmul nsub nadd nopp].
  rewrite ndiv_Fin. unfold sg_shrink. do 2 f_equal; lra. lra.
Qed.

Lemma sgipw_round_ok lam l : accepted l ->
  (forall i, (i < lg_n l)%nat -> 1 - lam + lam * weight l i <> 0) ->
  sgipw_round (Fin lam) (rewards l) (actions l) (pscores l) (policy l) (positions l)
  = Ok (tabF (lg_n l) (fun i => lg_r l i * sg_shrink lam (weight l i))).
Proof.
  intros H Hd. unfold sgipw_round. rewrite weights_ok by auto. cbn [bind].
  rewrite (map_tabF _ (sg_shrink lam)) by (intros; apply sg_weight_Fin; auto).
  unfold rewards. rewrite (bcast2_tabF nmul Rmult) by reflexivity.
  f_equal. unfold tabF. apply tab_ext. intros; f_equal; lra.
Qed.

Lemma sgdr_round_ok lam l : accepted l ->
  (forall i, (i < lg_n l)%nat -> 1 - lam + lam * weight l i <> 0) ->
  sgdr_round (Fin lam) (rewards l) (actions l) (pscores l) (policy l) (model l) (positions l)
  = Ok (tabF (lg_n l) (fun i => q_pi l i + sg_shrink lam (weight l i) * (lg_r l i - q_at l i))).
Proof.
  intros H Hd. unfold sgdr_round. rewrite weights_ok by auto. cbn [bind].
  rewrite (map_tabF _ (sg_shrink lam)) by (intros; apply sg_weight_Fin; auto).
  apply dr_tail; auto.
Qed.

(** ** Values *)

Lemma choose_pscore_ok use_est l ps eps : pscore_arg l use_est ps eps ->
  choose_pscore use_est ps eps = Ok (pscores l).
Proof. unfold pscore_arg, choose_pscore. destruct use_est; intros ->; reflexivity. Qed.

Lemma ipw_like_value_ok round use_est l arg ps eps f :
  accepted l -> position_arg l arg -> pscore_arg l use_est ps eps ->
  round (rewards l) (actions l) (pscores l) (policy l) (positions l) = Ok (tabF (lg_n l) f) ->
  ipw_like_value round use_est (rewards l) (actions l) (policy l) ps arg eps
  = Ok (Fin (avg (lg_n l) f)).
Proof.
  intros H Harg Hps Hr. unfold ipw_like_value, ipw_like_rounds.
  rewrite (choose_pscore_ok _ l) by auto. cbn [bind].
  rewrite check_ok by auto. cbn [bind]. rewrite default_position_ok by auto.
  rewrite Hr. cbn [bind]. rewrite nmean_tabF by (apply H). reflexivity.
Qed.

Lemma dr_like_value_ok round use_est l arg ps eps f :
  accepted l -> position_arg l arg -> pscore_arg l use_est ps eps ->
  round (rewards l) (actions l) (pscores l) (policy l) (model l) (positions l) = Ok (tabF (lg_n l) f) ->
  dr_like_value round use_est (rewards l) (actions l) (policy l) (model l) ps arg eps
  = Ok (Fin (avg (lg_n l) f)).
Proof.
  intros H Harg Hps Hr. unfold dr_like_value, dr_like_rounds.
  rewrite (choose_pscore_ok _ l) by auto. cbn [bind].
  rewrite check_ok by auto. cbn [bind]. rewrite default_position_ok by auto.
  rewrite Hr. cbn [bind]. rewrite nmean_tabF by (apply H). reflexivity.
Qed.

Lemma ipw_value_ok lam use_est l arg ps eps :
  accepted l -> position_arg l arg -> pscore_arg l use_est ps eps ->
  ipw_value (lam_num lam) use_est (rewards l) (actions l) (policy l) ps arg eps
  = Ok (Fin (spec_ipw lam l)).
Proof.
  intros. unfold ipw_value. erewrite ipw_like_value_ok; eauto using ipw_round_ok. reflexivity.
Qed.

Lemma avg_nz l : accepted l -> sumn (lg_n l) (weight l) <> 0 -> avg (lg_n l) (weight l) <> 0.
Proof.
  intros H Hs. unfold avg. pose proof (INR_pos _ (acc_n l H)).
  intros E. apply Hs. apply (Rmult_eq_reg_r (/ INR (lg_n l))).
  2:{ apply Rinv_neq_0_compat; lra. } rewrite Rmult_0_l. exact E.
Qed.

Lemma snipw_value_ok use_est l arg ps eps :
  accepted l -> position_arg l arg -> pscore_arg l use_est ps eps ->
  sumn (lg_n l) (weight l) <> 0 ->
  snipw_value use_est (rewards l) (actions l) (policy l) ps arg eps
  = Ok (Fin (spec_snipw l)).
Proof.
  intros H ? ? Hs. unfold snipw_value. erewrite ipw_like_value_ok; eauto using snipw_round_ok.
  do 2 f_equal. unfold spec_snipw, avg at 1. rewrite sumn_div. unfold avg.
  pose proof (INR_pos _ (acc_n l H)).
  rewrite (sumn_ext _ (fun i => lg_r l i * weight l i) (fun i => weight l i * lg_r l i)) by (intros; lra).
  field. split; lra.
Qed.

Lemma dm_value_ok l arg : accepted l -> position_arg l arg ->
  dm_value (policy l) (model l) arg = Ok (Fin (spec_dm l)).
Proof.
  intros H Harg. unfold dm_value. rewrite check_dm_ok by auto. cbn [bind].
  rewrite default_position_ok, dm_round_ok by auto. cbn [bind].
  rewrite nmean_tabF by (apply H). reflexivity.
Qed.

Lemma dr_sum f l : avg (lg_n l) (fun i => q_pi l i + f (weight l i) * (lg_r l i - q_at l i)) = spec_dr_with f l.
Proof. unfold spec_dr_with, spec_dm. apply avg_plus. Qed.

Lemma dr_value_ok lam use_est l arg ps eps :
  accepted l -> position_arg l arg -> pscore_arg l use_est ps eps ->
  dr_value (lam_num lam) use_est (rewards l) (actions l) (policy l) (model l) ps arg eps
  = Ok (Fin (spec_dr lam l)).
Proof.
  intros. unfold dr_value. erewrite dr_like_value_ok; eauto using dr_round_ok.
  rewrite (dr_sum (clip lam)). reflexivity.
Qed.

Lemma sndr_value_ok use_est l arg ps eps :
  accepted l -> position_arg l arg -> pscore_arg l use_est ps eps ->
  sumn (lg_n l) (weight l) <> 0 ->
  sndr_value use_est (rewards l) (actions l) (policy l) (model l) ps arg eps
  = Ok (Fin (spec_sndr l)).
Proof.
  intros H ? ? Hs. unfold sndr_value. erewrite dr_like_value_ok; eauto using sndr_round_ok.
  do 2 f_equal. rewrite avg_plus. unfold spec_sndr, spec_dm. f_equal.
  unfold avg at 1. rewrite sumn_div. unfold avg.
  pose proof (INR_pos _ (acc_n l H)). field. split; lra.
Qed.

Lemma switch_value_ok lam use_est l arg ps eps :
  accepted l -> position_arg l arg -> pscore_arg l use_est ps eps ->
  switch_value (lam_num lam) use_est (rewards l) (actions l) (policy l) (model l) ps arg eps
  = Ok (Fin (spec_switch lam l)).
Proof.
  intros. unfold switch_value. erewrite dr_like_value_ok; eauto using switch_round_ok.
  rewrite (dr_sum (switch_w lam)). reflexivity.
Qed.

Lemma dros_value_inf use_est l arg ps eps :
  accepted l -> position_arg l arg -> pscore_arg l use_est ps eps ->
  dros_value PInf use_est (rewards l) (actions l) (policy l) (model l) ps arg eps
  = Ok (Fin (spec_dr None l)).
Proof.
  intros. unfold dros_value. erewrite dr_like_value_ok; eauto using dros_round_inf.
  rewrite (dr_sum (fun w => w)). reflexivity.
Qed.

Lemma dros_value_ok lam use_est l arg ps eps :
  accepted l -> position_arg l arg -> pscore_arg l use_est ps eps ->
  (forall i, (i < lg_n l)%nat -> weight l i * weight l i + lam <> 0) ->
  dros_value (Fin lam) use_est (rewards l) (actions l) (policy l) (model l) ps arg eps
  = Ok (Fin (spec_dros lam l)).
Proof.
  intros. unfold dros_value. erewrite dr_like_value_ok; eauto using dros_round_ok.
  rewrite (dr_sum (os_shrink lam)). reflexivity.
Qed.

Lemma sgipw_value_ok lam use_est l arg ps eps :
  accepted l -> position_arg l arg -> pscore_arg l use_est ps eps ->
  (forall i, (i < lg_n l)%nat -> 1 - lam + lam * weight l i <> 0) ->
  sgipw_value (Fin lam) use_est (rewards l) (actions l) (policy l) ps arg eps
  = Ok (Fin (spec_sgipw lam l)).
Proof.
  intros. unfold sgipw_value. erewrite ipw_like_value_ok; eauto using sgipw_round_ok. reflexivity.
Qed.

Lemma sgdr_value_ok lam use_est l arg ps eps :
  accepted l -> position_arg l arg -> pscore_arg l use_est ps eps ->
  (forall i, (i < lg_n l)%nat -> 1 - lam + lam * weight l i <> 0) ->
  sgdr_value (Fin lam) use_est (rewards l) (actions l) (policy l) (model l) ps arg eps
  = Ok (Fin (spec_sgdr lam l)).
Proof.
  intros. unfold sgdr_value. erewrite dr_like_value_ok; eauto using sgdr_round_ok.
  rewrite (dr_sum (sg_shrink lam)). reflexivity.
Qed.
