(** * L_EstProps: algebra of the estimator specifications. *)

From Coq Require Import Reals List ZArith Bool Lia Lra Permutation.
From Verif Require Import Num NpList M_Utils M_Estimators S_Base S_Estimators L_Num L_Base L_Estimators.
Import ListNotations.
Open Scope R_scope.

(** ** num-level round rewards (no side condition on denominators) *)

Lemma snipw_round_num l : accepted l ->
  snipw_round (rewards l) (actions l) (pscores l) (policy l) (positions l)
  = Ok (tab (lg_n l) (fun i => ndiv (Fin (lg_r l i * weight l i)) (Fin (avg (lg_n l) (weight l))))).
Proof.
  intros H. unfold snipw_round. rewrite weights_ok by auto. cbn [bind].
  unfold rewards. rewrite (bcast2_tabF nmul Rmult) by reflexivity. cbn [bind].
  rewrite nmean_tabF by (apply H). unfold tabF. rewrite map_tab. reflexivity.
Qed.

Lemma dr_tail_num l (what : nat -> num) : accepted l ->
  (qf <- q_factual (model l) (actions l) (positions l) ;;
   est <- dm_baseline (policy l) (model l) (length (actions l)) (positions l) ;;
   resid <- bcast2 nsub (rewards l) qf ;;
   corr <- bcast2 nmul (tab (lg_n l) what) resid ;;
   iadd est corr)
  = Ok (tab (lg_n l) (fun i => nadd (Fin (q_pi l i)) (nmul (what i) (Fin (lg_r l i - q_at l i))))).
Proof.
  intros H. rewrite q_factual_ok, len_actions, baseline_ok by auto. cbn [bind].
  unfold rewards. rewrite (bcast2_tabF nsub Rminus) by reflexivity. cbn [bind].
  unfold tabF. rewrite bcast2_tab. cbn [bind]. unfold iadd. rewrite !tab_length, Nat.eqb_refl.
  cbn [orb]. rewrite bcast2_tab. reflexivity.
Qed.

Lemma sndr_round_num l : accepted l ->
  sndr_round (rewards l) (actions l) (pscores l) (policy l) (model l) (positions l)
  = Ok (tab (lg_n l) (fun i => nadd (Fin (q_pi l i))
         (ndiv (Fin (weight l i * (lg_r l i - q_at l i))) (Fin (avg (lg_n l) (weight l)))))).
Proof.
  intros H. unfold sndr_round. rewrite weights_ok by auto. cbn [bind].
  rewrite q_factual_ok, len_actions, baseline_ok by auto. cbn [bind].
  unfold rewards. rewrite (bcast2_tabF nsub Rminus) by reflexivity. cbn [bind].
  rewrite (bcast2_tabF nmul Rmult) by reflexivity. cbn [bind].
  rewrite nmean_tabF by (apply H).
  unfold tabF. rewrite map_tab. unfold iadd. rewrite !tab_length, Nat.eqb_refl. cbn [orb].
  rewrite bcast2_tab. reflexivity.
Qed.

Lemma dros_round_num lam l : accepted l ->
  dros_round lam (rewards l) (actions l) (pscores l) (policy l) (model l) (positions l)
  = Ok (tab (lg_n l) (fun i => nadd (Fin (q_pi l i))
         (nmul (os_weight lam (Fin (weight l i))) (Fin (lg_r l i - q_at l i))))).
Proof.
  intros H. unfold dros_round. rewrite weights_ok by auto. cbn [bind].
  unfold tabF at 1. rewrite map_tab. apply dr_tail_num; auto.
Qed.

Lemma sgdr_round_num lam l : accepted l ->
  sgdr_round lam (rewards l) (actions l) (pscores l) (policy l) (model l) (positions l)
  = Ok (tab (lg_n l) (fun i => nadd (Fin (q_pi l i))
         (nmul (sg_weight lam (Fin (weight l i))) (Fin (lg_r l i - q_at l i))))).
Proof.
  intros H. unfold sgdr_round. rewrite weights_ok by auto. cbn [bind].
  unfold tabF at 1. rewrite map_tab. apply dr_tail_num; auto.
Qed.

Lemma sgipw_round_num lam l : accepted l ->
  sgipw_round lam (rewards l) (actions l) (pscores l) (policy l) (positions l)
  = Ok (tab (lg_n l) (fun i => nmul (sg_weight lam (Fin (weight l i))) (Fin (lg_r l i)))).
Proof.
  intros H. unfold sgipw_round. rewrite weights_ok by auto. cbn [bind].
  unfold tabF at 1. rewrite map_tab. unfold rewards, tabF. rewrite bcast2_tab. reflexivity.
Qed.

Lemma rm_round_num l : accepted l ->
  rm_round (rewards l) (actions l) (policy l) (positions l)
  = Ok (if Rltb 0 (sumn (lg_n l) (matched l))
        then tab (lg_n l) (fun i => ndiv (Fin (matched l i * lg_r l i)) (Fin (avg (lg_n l) (matched l))))
        else tab (lg_n l) (fun _ => Fin 0)).
Proof.
  intros H. unfold rm_round, policy, actions at 1, positions, tabZ at 1.
  rewrite tab_length. unfold actions. rewrite fancy3_tab by (apply H). cbn [bind].
  replace (map _ (tabF (lg_n l) _)) with (tabF (lg_n l) (matched l)).
  2:{ unfold tabF. rewrite map_tab. apply tab_ext. intros i Hi. unfold matched. simpl.
      unfold nbool, Reqb. destruct (Req_EM_T _ _); reflexivity. }
  rewrite nsum_tabF. cbn [nlt]. destruct (Rltb 0 _).
  - unfold rewards. rewrite (bcast2_tabF nmul Rmult) by reflexivity. cbn [bind].
    rewrite nmean_tabF by (apply H). unfold tabF. rewrite map_tab. reflexivity.
  - unfold tabF. rewrite map_tab. reflexivity.
Qed.

Lemma ipw_like_value_num round use_est l arg ps eps f :
  accepted l -> position_arg l arg -> pscore_arg l use_est ps eps ->
  round (rewards l) (actions l) (pscores l) (policy l) (positions l) = Ok (tab (lg_n l) f) ->
  ipw_like_value round use_est (rewards l) (actions l) (policy l) ps arg eps
  = Ok (nmean (tab (lg_n l) f)).
Proof.
  intros H Harg Hps Hr. unfold ipw_like_value, ipw_like_rounds.
  rewrite (choose_pscore_ok _ l) by auto. cbn [bind].
  rewrite check_ok by auto. cbn [bind]. rewrite default_position_ok by auto.
  rewrite Hr. reflexivity.
Qed.

Lemma dr_like_value_num round use_est l arg ps eps f :
  accepted l -> position_arg l arg -> pscore_arg l use_est ps eps ->
  round (rewards l) (actions l) (pscores l) (policy l) (model l) (positions l) = Ok (tab (lg_n l) f) ->
  dr_like_value round use_est (rewards l) (actions l) (policy l) (model l) ps arg eps
  = Ok (nmean (tab (lg_n l) f)).
Proof.
  intros H Harg Hps Hr. unfold dr_like_value, dr_like_rounds.
  rewrite (choose_pscore_ok _ l) by auto. cbn [bind].
  rewrite check_ok by auto. cbn [bind]. rewrite default_position_ok by auto.
  rewrite Hr. reflexivity.
Qed.

(** ** Replay method *)

Lemma matched_01 l i : matched l i = 0 \/ matched l i = 1.
Proof. unfold matched. destruct (Req_EM_T _ _); auto. Qed.

Lemma rm_value_ok l arg : accepted l -> position_arg l arg ->
  rm_value (rewards l) (actions l) (policy l) arg = Ok (Fin (spec_rm l)).
Proof.
  intros H Harg. unfold rm_value. rewrite check_ok by auto. cbn [bind].
  rewrite default_position_ok, rm_round_num by auto. cbn [bind].
  assert (Hn : forall i, (i < lg_n l)%nat -> 0 <= matched l i)
    by (intros i _; destruct (matched_01 l i); lra).
  pose proof (sumn_nonneg _ _ Hn) as Hs. pose proof (INR_pos _ (acc_n l H)) as Hp.
  unfold spec_rm. destruct (Req_EM_T _ _) as [E|E].
  - rewrite E. replace (Rltb 0 0) with false by (symmetry; apply Rltb_false; lra).
    fold (tabF (lg_n l) (fun _ => 0)). rewrite nmean_tabF by (apply H).
    rewrite avg_const by (apply H). reflexivity.
  - replace (Rltb 0 _) with true by (symmetry; apply Rltb_true; lra).
    rewrite (tab_ext _ _ (fun i => Fin (matched l i * lg_r l i / avg (lg_n l) (matched l)))).
    2:{ intros i Hi. apply ndiv_Fin. unfold avg, Rdiv. apply Rmult_integral_contrapositive. split; auto.
        apply Rinv_neq_0_compat; lra. }
    fold (tabF (lg_n l) (fun i => matched l i * lg_r l i / avg (lg_n l) (matched l))).
    rewrite nmean_tabF by (apply H). do 2 f_equal. unfold avg. rewrite sumn_div. field. split; lra.
Qed.

(** ** Balanced IPW *)

Lemma check_eiw_ok l arg w : accepted l -> position_arg l arg ->
  (forall i, (i < lg_n l)%nat -> 0 <= w i) ->
  check_ope_inputs (policy l) arg (Some (actions l)) (Some (rewards l)) None None
    (Some (tabF (lg_n l) w)) = Ok tt.
Proof.
  intros H Harg Hw.
  pose proof (check_ok l arg None None H Harg (or_introl eq_refl) (or_introl eq_refl)) as HC.
  unfold check_ope_inputs in *.
  apply bind_Ok in HC as ([] & -> & HC). cbn [bind] in *.
  apply bind_Ok in HC as ([] & -> & HC). cbn [bind] in *.
  rewrite len_actions. unfold tabF at 1. rewrite tab_length, Nat.eqb_refl. cbn [negb raise_if bind].
  unfold any_lt0, tabF. rewrite existsb_tab_false. cbn [raise_if bind].
  rewrite len_actions in HC. exact HC.
  intros i Hi. simpl. apply Rltb_false. auto.
Qed.

Lemma bipw_value_ok lam l arg w : accepted l -> position_arg l arg ->
  (forall i, (i < lg_n l)%nat -> 0 <= w i) ->
  sumn (lg_n l) (fun i => clip lam (w i)) <> 0 ->
  bipw_value (lam_num lam) (rewards l) (actions l) (policy l) (tabF (lg_n l) w) arg
  = Ok (Fin (spec_bipw lam w l)).
Proof.
  intros H Harg Hw Hs. unfold bipw_value. rewrite check_eiw_ok by auto. cbn [bind].
  unfold bipw_round. rewrite (map_tabF _ (clip lam)) by (intros; apply clip_num).
  unfold rewards. rewrite (bcast2_tabF nmul Rmult) by reflexivity. cbn [bind].
  rewrite nmean_tabF by (apply H). pose proof (INR_pos _ (acc_n l H)) as Hp.
  rewrite (map_tabF _ (fun x => x / avg (lg_n l) (fun i => clip lam (w i)))).
  2:{ intros i Hi. apply ndiv_Fin. unfold avg, Rdiv. apply Rmult_integral_contrapositive. split; auto.
        apply Rinv_neq_0_compat; lra. }
  rewrite nmean_tabF by (apply H). do 2 f_equal. unfold spec_bipw, avg. rewrite sumn_div.
  rewrite (sumn_ext _ (fun i => lg_r l i * _) (fun i => clip lam (w i) * lg_r l i)) by (intros; lra).
  field. split; lra.
Qed.

(** ** Weights *)

Lemma weight_nonneg l i : accepted l -> is_policy l -> (i < lg_n l)%nat -> 0 <= weight l i.
Proof.
  intros H Hp Hi. unfold weight. apply Rmult_le_pos.
  apply Hp; auto. apply H; auto. apply H; auto.
  left. apply Rinv_0_lt_compat. apply H; auto.
Qed.

Lemma convex_bounds n w r lo hi :
  (forall i, (i < n)%nat -> 0 <= w i) -> 0 < sumn n w -> bounded_by n r lo hi ->
  lo <= sumn n (fun i => w i * r i) / sumn n w <= hi.
Proof.
  intros Hw Hs Hb. split; apply (Rmult_le_reg_r (sumn n w)); auto;
    unfold Rdiv; rewrite Rmult_assoc, Rinv_l, Rmult_1_r by lra; rewrite <- sumn_scal;
    apply sumn_le; intros i Hi; specialize (Hb i Hi); specialize (Hw i Hi); nra.
Qed.

(** ** Permutation invariance *)

Lemma sumn_list n f : sumn n f = fold_right Rplus 0 (map f (seq 0 n)).
Proof.
  revert f; induction n; intros; auto. rewrite sumn_S_first. simpl. f_equal.
  rewrite IHn. rewrite <- seq_shift, map_map. reflexivity.
Qed.
Lemma fold_Rplus_perm l l' : Permutation l l' -> fold_right Rplus 0 l = fold_right Rplus 0 l'.
Proof. induction 1; simpl; lra. Qed.
Lemma nadd_comm x y : nadd x y = nadd y x.
Proof. destruct x, y; simpl; auto. f_equal; lra. Qed.
Lemma nadd_assoc x y z : nadd x (nadd y z) = nadd (nadd x y) z.
Proof. destruct x, y, z; simpl; auto. f_equal; lra. Qed.
Lemma nsum_perm l l' : Permutation l l' -> nsum l = nsum l'.
Proof.
  unfold nsum. induction 1; simpl; try congruence.
  rewrite !nadd_assoc. f_equal. apply nadd_comm.
Qed.
Lemma reordering_perm n s : is_reordering n s -> Permutation (map s (seq 0 n)) (seq 0 n).
Proof.
  intros [H1 H2]. apply NoDup_Permutation_bis.
  - assert (forall l, NoDup l -> (forall i, In i l -> (i < n)%nat) -> NoDup (map s l)) as HND.
    { induction 1; simpl; intros Hin; constructor.
      - intros Hs. apply in_map_iff in Hs as (y & E & Hy).
        apply H2 in E; auto. subst; contradiction.
      - apply IHNoDup. auto. }
    apply HND. apply seq_NoDup. intros i Hi. apply in_seq in Hi; lia.
  - rewrite map_length; lia.
  - intros x Hx. apply in_map_iff in Hx as (y & <- & Hy). apply in_seq in Hy. apply in_seq.
    specialize (H1 y). lia.
Qed.
Lemma sumn_reorder n s f : is_reordering n s -> sumn n (fun i => f (s i)) = sumn n f.
Proof.
  intros H. rewrite !sumn_list. rewrite <- (map_map s f). apply fold_Rplus_perm.
  apply Permutation_map. apply reordering_perm; auto.
Qed.
Lemma avg_reorder n s f : is_reordering n s -> avg n (fun i => f (s i)) = avg n f.
Proof. intros; unfold avg; rewrite sumn_reorder; auto. Qed.
Lemma nmean_reorder n s f : is_reordering n s -> nmean (tab n (fun i => f (s i))) = nmean (tab n f).
Proof.
  intros H. unfold nmean. rewrite !tab_length. f_equal. apply nsum_perm.
  unfold tab. rewrite <- (map_map s f). apply Permutation_map. apply reordering_perm; auto.
Qed.

Lemma accepted_reorder s l : is_reordering (lg_n l) s -> accepted l -> accepted (reorder s l).
Proof. intros [Hs _] H. destruct H; constructor; simpl; auto. Qed.
Lemma weight_reorder s l i : weight (reorder s l) i = weight l (s i).
Proof. reflexivity. Qed.
Lemma q_pi_reorder s l i : q_pi (reorder s l) i = q_pi l (s i).
Proof. reflexivity. Qed.
Lemma q_at_reorder s l i : q_at (reorder s l) i = q_at l (s i).
Proof. reflexivity. Qed.
Lemma matched_reorder s l i : matched (reorder s l) i = matched l (s i).
Proof. reflexivity. Qed.

(** ** Shrinkage weights *)

Lemma os_shrink_bounds lam w : 0 < lam -> 0 <= w ->
  0 <= os_shrink lam w /\ os_shrink lam w <= w /\ os_shrink lam w <= sqrt lam / 2.
Proof.
  intros Hl Hw. unfold os_shrink.
  assert (Hd : 0 < w * w + lam) by nra.
  assert (Hi : 0 < / (w * w + lam)) by (apply Rinv_0_lt_compat; auto).
  split; [|split].
  - apply Rmult_le_pos; [nra|lra].
  - apply (Rmult_le_reg_r (w * w + lam)); auto. unfold Rdiv.
    rewrite Rmult_assoc, Rinv_l, Rmult_1_r by lra. nra.
  - apply (Rmult_le_reg_r (w * w + lam)); auto. unfold Rdiv.
    rewrite Rmult_assoc, Rinv_l, Rmult_1_r by lra.
    pose proof (sqrt_pos lam). pose proof (sqrt_sqrt lam (Rlt_le _ _ Hl)) as Hs.
    set (s := sqrt lam) in *. rewrite <- Hs.
    assert (0 <= s * (w - s) * (w - s)).
    { rewrite Rmult_assoc. apply Rmult_le_pos; auto. apply Rle_0_sqr. }
    nra.
Qed.

Lemma os_shrink_mono lam1 lam2 w : 0 < lam1 -> lam1 <= lam2 -> 0 <= w ->
  os_shrink lam1 w <= os_shrink lam2 w.
Proof.
  intros H1 H2 Hw. unfold os_shrink.
  assert (0 < w * w + lam1) by nra. assert (0 < w * w + lam2) by nra.
  apply (Rmult_le_reg_r ((w * w + lam1) * (w * w + lam2))). nra.
  replace (lam1 * w / (w * w + lam1) * ((w * w + lam1) * (w * w + lam2)))
    with (lam1 * w * (w * w + lam2)) by (field; lra).
  replace (lam2 * w / (w * w + lam2) * ((w * w + lam1) * (w * w + lam2)))
    with (lam2 * w * (w * w + lam1)) by (field; lra).
  assert (0 <= w * w * w) by (repeat apply Rmult_le_pos; auto). nra.
Qed.

Lemma sg_den_pos lam w : 0 <= lam < 1 -> 0 <= w -> 0 < 1 - lam + lam * w.
Proof. intros. assert (0 <= lam * w) by (apply Rmult_le_pos; lra). lra. Qed.

Lemma sg_shrink_bounds lam w : 0 < lam < 1 -> 0 <= w ->
  0 <= sg_shrink lam w < / lam /\ Rmin 1 w <= sg_shrink lam w <= Rmax 1 w.
Proof.
  intros Hl Hw. pose proof (sg_den_pos lam w ltac:(lra) Hw) as Hd. unfold sg_shrink.
  set (d := 1 - lam + lam * w) in *.
  assert (Hi : 0 < / d) by (apply Rinv_0_lt_compat; auto).
  assert (E : forall c, (w / d <= c <-> w <= c * d)).
  { intros c. split; intros Hc.
    - apply (Rmult_le_compat_r d) in Hc; [|lra]. unfold Rdiv in Hc.
      rewrite Rmult_assoc, Rinv_l, Rmult_1_r in Hc; lra.
    - apply (Rmult_le_reg_r d); auto. unfold Rdiv. rewrite Rmult_assoc, Rinv_l, Rmult_1_r; lra. }
  assert (E' : forall c, (c <= w / d <-> c * d <= w)).
  { intros c. split; intros Hc.
    - apply (Rmult_le_compat_r d) in Hc; [|lra]. unfold Rdiv in Hc.
      rewrite Rmult_assoc, Rinv_l, Rmult_1_r in Hc; lra.
    - apply (Rmult_le_reg_r d); auto. unfold Rdiv. rewrite Rmult_assoc, Rinv_l, Rmult_1_r; lra. }
  split; [split|split].
  - apply Rmult_le_pos; lra.
  - apply (Rmult_lt_reg_r d); auto. unfold Rdiv. rewrite Rmult_assoc, Rinv_l, Rmult_1_r by lra.
    apply (Rmult_lt_reg_l lam); [lra|]. rewrite <- Rmult_assoc, Rinv_r, Rmult_1_l by lra.
    unfold d. lra.
  - apply E'. unfold Rmin, d. clear - Hl Hw. destruct (Rle_dec 1 w).
    + assert (0 <= (1 - lam) * (w - 1)) by (apply Rmult_le_pos; lra). nra.
    + assert (0 <= w * lam * (1 - w)) by (repeat apply Rmult_le_pos; lra). nra.
  - apply E. unfold Rmax, d. clear - Hl Hw. destruct (Rle_dec 1 w).
    + assert (0 <= w * lam * (w - 1)) by (repeat apply Rmult_le_pos; lra). nra.
    + assert (0 <= (1 - lam) * (1 - w)) by (apply Rmult_le_pos; lra). nra.
Qed.

Lemma sg_shrink_mono lam w1 w2 : 0 <= lam < 1 -> 0 <= w1 -> w1 <= w2 ->
  sg_shrink lam w1 <= sg_shrink lam w2.
Proof.
  intros Hl H1 H2. pose proof (sg_den_pos lam w1 Hl H1). pose proof (sg_den_pos lam w2 Hl ltac:(lra)).
  unfold sg_shrink.
  apply (Rmult_le_reg_r ((1 - lam + lam * w1) * (1 - lam + lam * w2))). nra.
  replace (w1 / (1 - lam + lam * w1) * ((1 - lam + lam * w1) * (1 - lam + lam * w2)))
    with (w1 * (1 - lam + lam * w2)) by (field; lra).
  replace (w2 / (1 - lam + lam * w2) * ((1 - lam + lam * w1) * (1 - lam + lam * w2)))
    with (w2 * (1 - lam + lam * w1)) by (field; lra).
  nra.
Qed.
