(** * P_Linear: theorems about the linear contextual policies (C68, C71, C72, C92). *)

From Coq Require Import Reals List ZArith Lia Lra Bool Permutation.
From Verif Require Import Num NpList M_Utils M_Slate M_Multi M_Embed M_Policy M_Linear S_Base S_Tuning S_Policy S_Linear
  L_Num L_Base L_Tuning L_Embed L_Policy L_Linear.
Import ListNotations.
Open Scope R_scope.

(** A two-dimensional history with two actions, used by the examples. *)
Definition ex_hist : list round :=
  [mkRound 0 1 (fun i => INR i + 1); mkRound 1 0 (fun i => 1); mkRound (-2) 2 (fun i => INR i)].
Lemma ex_hist_valid : forall e, In e ex_hist -> valid_action 2 (rd_action e).
Proof. intros e [<-|[<-|[<-|[]]]]; unfold valid_action; simpl; lia. Qed.
Lemma lin_post_init_ex : exists p, lin_post_init 2 2 1 2 = Ok p.
Proof. eexists. reflexivity. Qed.

(** ** C71: the stored matrices are the regularised inverses *)

Theorem C71_inverse_of_committed_rounds d K L B p0 h :
  lin_post_init (Z.of_nat d) (Z.of_nat K) (Z.of_nat L) (Z.of_nat B) = Ok p0 ->
  (forall e, In e h -> valid_action K (rd_action e)) ->
  let p := lin_updates d p0 h in
  let h' := committed B h in
  exists M, ln_A_inv p = tab3F K d d M /\
    (forall a, (a < K)%nat ->
       is_inverse d (gram K h' a) (M a) /\ symmetric d (M a) /\ pos_def d (M a)) /\
    ln_b p = tab2F d K (fun i a => moment K h' a i).
Proof.
  intros H0 Hv p h'. apply lin_post_init_inv in H0 as (H1 & H2 & H3 & H4 & Ha). rewrite !Nat2Z.id in Ha.
  assert (Hp : lin_after d K L B h p). { apply (lin_updates_after d K L B h ltac:(lia) ltac:(lia) Hv [] p0 Ha). }
  destruct Hp as [_ _ _ _ _ _ (M & E1 & HM) Eb _ _]. exists M. split; [exact E1|split; [|exact Eb]].
  intros a Ha'. destruct (HM a Ha') as [S1 S2]. split; [|split; [exact S1|]].
  - apply inv_two_sided; auto.
  - apply (inv_pos_def K d h' a); auto.
Qed.

Example C71_inverse_ex : exists p0, lin_post_init 2 2 1 2 = Ok p0 /\
  exists M, ln_A_inv (lin_updates 2 p0 ex_hist) = tab3F 2 2 2 M /\
    is_inverse 2 (gram 2 (committed 2 ex_hist) 0) (M 0%nat).
Proof.
  destruct lin_post_init_ex as [p0 H0]. exists p0. split; [exact H0|].
  destruct (C71_inverse_of_committed_rounds 2 2 1 2 p0 ex_hist H0 ex_hist_valid) as (M & E & HM & _).
  exists M. split; [exact E|]. apply HM. lia.
Qed.

(** Every update with an action in range and a (1, d) context succeeds; the action counter counts all
    updates, committed or not. *)
Theorem C71_updates_succeed d K L B p0 h e :
  lin_post_init (Z.of_nat d) (Z.of_nat K) (Z.of_nat L) (Z.of_nat B) = Ok p0 ->
  (forall e, In e h -> valid_action K (rd_action e)) ->
  valid_action K (rd_action e) ->
  let p := lin_updates d p0 h in
  snd (lin_update_params p (rd_action e) (Fin (rd_reward e)) [tabF d (rd_x e)]) = Ok tt /\
  ln_n_trial p = length h /\
  ln_action_counts p = tabZ K (times K (map (fun e => (rd_action e, rd_reward e)) h)).
Proof.
  intros H0 Hv He p. apply lin_post_init_inv in H0 as (H1 & H2 & H3 & H4 & Ha). rewrite !Nat2Z.id in Ha.
  assert (Hp : lin_after d K L B h p). { apply (lin_updates_after d K L B h ltac:(lia) ltac:(lia) Hv [] p0 Ha). }
  split; [|split; [apply Hp|apply Hp]]. apply (lin_update_after d K L B h p e); auto; lia.
Qed.

Example C71_updates_succeed_ex : exists p0, lin_post_init 2 2 1 2 = Ok p0 /\
  ln_action_counts (lin_updates 2 p0 ex_hist) = [2; 1]%Z.
Proof.
  destruct lin_post_init_ex as [p0 H0]. exists p0. split; [exact H0|].
  destruct (C71_updates_succeed 2 2 1 2 p0 ex_hist (mkRound 0 0 (fun _ => 0)) H0 ex_hist_valid) as (_ & _ & E).
  unfold valid_action; simpl; lia. rewrite E. reflexivity.
Qed.

(** A context with two rows is not rejected up front: the call raises ValueError, but only after it has
    changed the pending inverse and the counters, leaving the pending [b] as it was. *)
Theorem C71_bad_context_half_applied : exists p0 p1 e,
  lin_post_init 1 2 1 1 = Ok p0 /\
  lin_update_params p0 0 (Fin 1) [[Fin 1]; [Fin 1]] = (p1, Err e) /\ e = ValueError /\
  ln_A_inv_temp p1 <> ln_A_inv_temp p0 /\ ln_b_temp p1 = ln_b_temp p0 /\ ln_n_trial p1 = 1%nat.
Proof.
  exists (mkLinp 1 2 1 1 0 [0; 0]%Z [[[Fin 1]]; [[Fin 1]]] [[Fin 0; Fin 0]] [[[Fin 1]]; [[Fin 1]]] [[Fin 0; Fin 0]]).
  exists (mkLinp 1 2 1 1 1 [1; 0]%Z [[[Fin 1]]; [[Fin 1]]] [[Fin 0; Fin 0]] [[[Fin 0]]; [[Fin 1]]] [[Fin 0; Fin 0]]).
  exists ValueError. split; [reflexivity|].
  assert (E : woodbury [[Fin 1]] [[Fin 1]; [Fin 1]] = Ok [[Fin 0]]).
  { cbn -[ndiv]. rewrite ndiv_Fin by lra. cbn. do 4 f_equal; field; lra. }
  split.
  - unfold lin_update_params. cbn -[woodbury].
    rewrite E. reflexivity.
  - split; [reflexivity|]. cbn. split; [|auto]. intros C. injection C as C. lra.
Qed.

(** ** C92: scores are those of ridge regression *)

(** LinEpsilonGreedy ranks, in its greedy branch, by the ridge-regression predictions: [theta a] is the
    unique minimiser of the squared error on the committed rounds of [a] plus the squared norm. *)
Theorem C92_greedy_by_ridge_regression argsort d K L B p0 h epsilon x u choice :
  (forall xs, is_argsort xs (argsort xs)) ->
  lin_post_init (Z.of_nat d) (Z.of_nat K) (Z.of_nat L) (Z.of_nat B) = Ok p0 ->
  (forall e, In e h -> valid_action K (rd_action e)) ->
  let p := lin_updates d p0 h in
  let h' := committed B h in
  exists theta,
    (forall a w, (a < K)%nat -> ridge_loss K d h' a (theta a) <= ridge_loss K d h' a w) /\
    (forall a w, (a < K)%nat -> (exists i, (i < d)%nat /\ w i <> theta a i) ->
                 ridge_loss K d h' a (theta a) < ridge_loss K d h' a w) /\
    (epsilon < u -> exists l, lin_eg_select_action argsort (Fin epsilon) p [tabF d x] u choice = Ok l /\
                              best_first K L (fun a => dot d x (theta a)) l) /\
    (u <= epsilon -> lin_eg_select_action argsort (Fin epsilon) p [tabF d x] u choice = Ok choice).
Proof.
  intros Hs H0 Hv p h'. apply lin_post_init_inv in H0 as (H1 & H2 & H3 & H4 & Ha). rewrite !Nat2Z.id in Ha.
  assert (Hp : lin_after d K L B h p). { apply (lin_updates_after d K L B h ltac:(lia) ltac:(lia) Hv [] p0 Ha). }
  destruct Hp as [a1 a2 a3 _ _ _ (M & E1 & HM) Eb _ _]. fold h' in HM, Eb.
  exists (fun a => mvec d (M a) (moment K h' a)).
  assert (G : forall a w, (a < K)%nat -> (exists i, (i < d)%nat /\ w i <> mvec d (M a) (moment K h' a) i) ->
                 ridge_loss K d h' a (mvec d (M a) (moment K h' a)) < ridge_loss K d h' a w).
  { intros a w Ha' (i & Hi & Hw). destruct (HM a Ha') as [S1 S2]. rewrite (ridge_min K d h' a (M a) S2 w).
    assert (0 < dot d (fun i => w i - mvec d (M a) (moment K h' a) i) (mvec d (gram K h' a) (fun i => w i - mvec d (M a) (moment K h' a) i))).
    { apply gram_quad_pos. exists i. split; auto. lra. } lra. }
  split; [|split; [exact G|split]].
  - intros a w Ha'. destruct (HM a Ha') as [S1 S2]. rewrite (ridge_min K d h' a (M a) S2 w).
    match goal with |- _ <= _ + ?t => assert (0 <= t); [|lra] end. rewrite bil_gram. apply Rplus_le_le_0_compat.
    apply dot_self_nonneg. apply lsum_nonneg. intros e. rewrite (dot_sym d (rd_x e)). apply Rle_0_sqr.
  - intros Hu. unfold lin_eg_select_action, check_context. simpl length. cbn [Nat.eqb negb raise_if bind].
    simpl nlt. assert (Eu : Rltb epsilon u = true) by (apply Rltb_true; auto). rewrite Eu.
    rewrite (thetas_ok d K p M (moment K h')) by (auto; lia). cbn [bind]. rewrite scores_ok by lia. cbn [bind].
    eexists. split; [reflexivity|]. rewrite a3. apply top_k_best; auto. lia.
  - intros Hu. unfold lin_eg_select_action, check_context. simpl length. cbn [Nat.eqb negb raise_if bind].
    simpl nlt. assert (Eu : Rltb epsilon u = false) by (apply Rltb_false; lra). rewrite Eu. reflexivity.
Qed.

Example C92_greedy_ex : exists p0, lin_post_init 2 2 1 2 = Ok p0 /\
  exists l, lin_eg_select_action isort (Fin 0) (lin_updates 2 p0 ex_hist) [tabF 2 (fun _ => 1)] (1/2) [0%nat] = Ok l /\ is_ranking 2 1 l.
Proof.
  destruct lin_post_init_ex as [p0 H0]. exists p0. split; [exact H0|].
  destruct (C92_greedy_by_ridge_regression isort 2 2 1 2 p0 ex_hist 0 (fun _ => 1) (1/2) [0%nat] isort_ok H0 ex_hist_valid)
    as (theta & _ & _ & HA & _). destruct HA as (l & E & (HR & _)). lra. exists l. auto.
Qed.

(** LinUCB ranks by ridge prediction plus epsilon times the real square root of x^T A^-1 x, where the matrix
    is the inverse of the committed Gram matrix. *)
Theorem C92_ucb_score argsort d K L B p0 h epsilon x :
  (forall xs, is_argsort xs (argsort xs)) ->
  lin_post_init (Z.of_nat d) (Z.of_nat K) (Z.of_nat L) (Z.of_nat B) = Ok p0 ->
  (forall e, In e h -> valid_action K (rd_action e)) ->
  let p := lin_updates d p0 h in
  let h' := committed B h in
  exists theta M,
    (forall a, (a < K)%nat -> is_inverse d (gram K h' a) (M a)) /\
    (forall a, (a < K)%nat -> 0 <= dot d x (mvec d (M a) x)) /\
    (forall a w, (a < K)%nat -> ridge_loss K d h' a (theta a) <= ridge_loss K d h' a w) /\
    exists l, lin_ucb_select_action argsort (Fin epsilon) p [tabF d x] = Ok l /\
      best_first K L (fun a => dot d x (theta a) + epsilon * sqrt (dot d x (mvec d (M a) x))) l.
Proof.
  intros Hs H0 Hv p h'. apply lin_post_init_inv in H0 as (H1 & H2 & H3 & H4 & Ha). rewrite !Nat2Z.id in Ha.
  assert (Hp : lin_after d K L B h p). { apply (lin_updates_after d K L B h ltac:(lia) ltac:(lia) Hv [] p0 Ha). }
  destruct Hp as [a1 a2 a3 _ _ _ (M & E1 & HM) Eb _ _]. fold h' in HM, Eb.
  exists (fun a => mvec d (M a) (moment K h' a)), M.
  assert (HP : forall a, (a < K)%nat -> 0 <= dot d x (mvec d (M a) x)).
  { intros a Ha'. apply (quad_nonneg K d h' a). apply HM; auto. }
  split; [|split; [exact HP|split]].
  - intros a Ha'. apply inv_two_sided; apply HM; auto.
  - intros a w Ha'. destruct (HM a Ha') as [S1 S2]. rewrite (ridge_min K d h' a (M a) S2 w).
    match goal with |- _ <= _ + ?t => assert (0 <= t); [|lra] end. rewrite bil_gram. apply Rplus_le_le_0_compat.
    apply dot_self_nonneg. apply lsum_nonneg. intros e. rewrite (dot_sym d (rd_x e)). apply Rle_0_sqr.
  - unfold lin_ucb_select_action, check_context. simpl length. cbn [Nat.eqb negb raise_if bind].
    rewrite (thetas_ok d K p M (moment K h')) by (auto; lia). cbn [bind].
    rewrite (sigmas_ok d K p M x) by (auto; try lia; intros; apply HM; auto). cbn [bind].
    rewrite scores_ok by lia. cbn [bind]. unfold tabF at 1 2. rewrite map_tab, bcast2_tab. cbn [bind].
    eexists. split; [reflexivity|]. rewrite a3. apply top_k_best; auto. lia.
Qed.

Example C92_ucb_ex : exists p0, lin_post_init 2 2 1 2 = Ok p0 /\
  exists l, lin_ucb_select_action isort (Fin 1) (lin_updates 2 p0 ex_hist) [tabF 2 (fun _ => 1)] = Ok l /\ is_ranking 2 1 l.
Proof.
  destruct lin_post_init_ex as [p0 H0]. exists p0. split; [exact H0|].
  destruct (C92_ucb_score isort 2 2 1 2 p0 ex_hist 1 (fun _ => 1) isort_ok H0 ex_hist_valid)
    as (theta & M & _ & _ & _ & l & E & (HR & _)). exists l. auto.
Qed.

(** LinTS draws one parameter vector per action with the ridge solution as mean and the inverse Gram matrix
    as covariance, and ranks by the drawn parameters. *)
Theorem C92_ts_samples_ridge_posterior argsort d K L B p0 h x mvn sample :
  (forall xs, is_argsort xs (argsort xs)) ->
  lin_post_init (Z.of_nat d) (Z.of_nat K) (Z.of_nat L) (Z.of_nat B) = Ok p0 ->
  (forall e, In e h -> valid_action K (rd_action e)) ->
  (forall a m M, mvn a (tabF d m) (tab2F d d M) = tabF d (sample a m M)) ->
  let p := lin_updates d p0 h in
  let h' := committed B h in
  exists theta M,
    (forall a, (a < K)%nat -> is_inverse d (gram K h' a) (M a) /\ pos_def d (M a)) /\
    (forall a w, (a < K)%nat -> ridge_loss K d h' a (theta a) <= ridge_loss K d h' a w) /\
    exists l, lin_ts_select_action argsort p [tabF d x] mvn = Ok l /\
      best_first K L (fun a => dot d x (sample a (theta a) (M a))) l.
Proof.
  intros Hs H0 Hv Hmv p h'. apply lin_post_init_inv in H0 as (H1 & H2 & H3 & H4 & Ha). rewrite !Nat2Z.id in Ha.
  assert (Hp : lin_after d K L B h p). { apply (lin_updates_after d K L B h ltac:(lia) ltac:(lia) Hv [] p0 Ha). }
  destruct Hp as [a1 a2 a3 _ _ _ (M & E1 & HM) Eb _ _]. fold h' in HM, Eb.
  exists (fun a => mvec d (M a) (moment K h' a)), M.
  split; [|split].
  - intros a Ha'. split; [apply inv_two_sided|apply (inv_pos_def K d h' a)]; apply HM; auto.
  - intros a w Ha'. destruct (HM a Ha') as [S1 S2]. rewrite (ridge_min K d h' a (M a) S2 w).
    match goal with |- _ <= _ + ?t => assert (0 <= t); [|lra] end. rewrite bil_gram. apply Rplus_le_le_0_compat.
    apply dot_self_nonneg. apply lsum_nonneg. intros e. rewrite (dot_sym d (rd_x e)). apply Rle_0_sqr.
  - unfold lin_ts_select_action. rewrite (thetas_ok d K p M (moment K h')) by (auto; lia). cbn [bind].
    rewrite a2, E1.
    assert (Em : map (fun i => mvn i (nth i (tab K (fun a => tabF d (mvec d (M a) (moment K h' a)))) []) (nth i (tab3F K d d M) [])) (seq 0 K)
              = tab K (fun a => tabF d (sample a (mvec d (M a) (moment K h' a)) (M a)))).
    { unfold tab at 2. apply map_ext_in. intros i Hi. apply in_seq in Hi. unfold tab3F. rewrite !nth_tab by lia. apply Hmv. }
    rewrite Em, scores_ok by lia. cbn [bind]. eexists. split; [reflexivity|]. rewrite a3. apply top_k_best; auto. lia.
Qed.

Example C92_ts_ex : exists p0, lin_post_init 2 2 1 2 = Ok p0 /\
  exists l, lin_ts_select_action isort (lin_updates 2 p0 ex_hist) [tabF 2 (fun _ => 1)] (fun _ m _ => m) = Ok l /\ is_ranking 2 1 l.
Proof.
  destruct lin_post_init_ex as [p0 H0]. exists p0. split; [exact H0|].
  destruct (C92_ts_samples_ridge_posterior isort 2 2 1 2 p0 ex_hist (fun _ => 1) (fun _ m _ => m) (fun _ m _ => m) isort_ok H0 ex_hist_valid)
    as (theta & M & _ & _ & l & E & (HR & _)). reflexivity. exists l. auto.
Qed.

(** ** C68 for linear policies *)

(** With a (1, dim) context all three policies return valid rankings, whatever the history and the draws. *)
Theorem C68_linear_valid_rankings argsort d K L B p0 h epsilon x u choice mvn sample :
  (forall xs, is_argsort xs (argsort xs)) ->
  lin_post_init (Z.of_nat d) (Z.of_nat K) (Z.of_nat L) (Z.of_nat B) = Ok p0 ->
  (forall e, In e h -> valid_action K (rd_action e)) ->
  is_ranking K L choice ->
  (forall a m M, mvn a (tabF d m) (tab2F d d M) = tabF d (sample a m M)) ->
  let p := lin_updates d p0 h in
  (exists l, lin_eg_select_action argsort (Fin epsilon) p [tabF d x] u choice = Ok l /\ is_ranking K L l) /\
  (exists l, lin_ucb_select_action argsort (Fin epsilon) p [tabF d x] = Ok l /\ is_ranking K L l) /\
  (exists l, lin_ts_select_action argsort p [tabF d x] mvn = Ok l /\ is_ranking K L l).
Proof.
  intros Hs H0 Hv Hc Hm p. split; [|split].
  - destruct (C92_greedy_by_ridge_regression argsort d K L B p0 h epsilon x u choice Hs H0 Hv) as (theta & _ & _ & HA & HN).
    destruct (Rlt_le_dec epsilon u) as [Hu|Hu].
    + destruct (HA Hu) as (l & E & (HR & _)). exists l. auto.
    + exists choice. auto.
  - destruct (C92_ucb_score argsort d K L B p0 h epsilon x Hs H0 Hv) as (theta & M & _ & _ & _ & l & E & (HR & _)). exists l. auto.
  - destruct (C92_ts_samples_ridge_posterior argsort d K L B p0 h x mvn sample Hs H0 Hv Hm) as (theta & M & _ & _ & l & E & (HR & _)).
    exists l. auto.
Qed.

Example C68_linear_ex : exists p0, lin_post_init 2 2 1 2 = Ok p0 /\ is_ranking 2 1 [1%nat].
Proof.
  destruct lin_post_init_ex as [p0 H0]. exists p0. split; [exact H0|]. split; [|split]; auto.
  constructor; [intros []|constructor]. intros a [<-|[]]. lia.
Qed.

(** LinEpsilonGreedy and LinUCB reject contexts that do not have exactly one row. *)
Theorem C68_linear_context_rows argsort epsilon p context u choice :
  length context <> 1%nat ->
  lin_eg_select_action argsort epsilon p context u choice = Err ValueError /\
  lin_ucb_select_action argsort epsilon p context = Err ValueError.
Proof.
  intros H. unfold lin_eg_select_action, lin_ucb_select_action, check_context.
  destruct (Nat.eqb_spec (length context) 1); [contradiction|]. cbn. auto.
Qed.

(** LinTS has no such check: with a two-row context it returns an index that is not an action. *)
Theorem C68_linear_ts_two_rows_out_of_range argsort :
  (forall xs, is_argsort xs (argsort xs)) ->
  exists p0 l, lin_post_init 1 2 1 1 = Ok p0 /\
    lin_ts_select_action argsort p0 [[Fin 0]; [Fin 1]] (fun _ _ _ => [Fin 1]) = Ok l /\
    length l = 1%nat /\ (2 <= nth 0 l 0)%nat.
Proof.
  intros Hs. eexists. set (xs := [Fin (0 * 1 + 0); Fin (0 * 1 + 0); Fin (1 * 1 + 0); Fin (1 * 1 + 0)]).
  exists (top_k argsort 1 xs). split; [reflexivity|]. split; [reflexivity|].
  assert (E : xs = tabF 4 (fun i => if (i <? 2)%nat then 0 else 1)).
  { unfold xs, tabF, tab. simpl. repeat f_equal; ring. }
  rewrite E. assert (HB := top_k_best argsort 4 1 (fun i => if (i <? 2)%nat then 0 else 1) (Hs _) ltac:(lia)).
  destruct HB as ((R1 & R2 & R3) & _ & H2). split; [exact R2|].
  destruct (top_k argsort 1 (tabF 4 _)) as [|a [|b l]]; try discriminate. simpl.
  destruct (Nat.ltb_spec a 2) as [Ha|Ha]; [|lia]. exfalso.
  specialize (H2 3%nat a ltac:(lia)). simpl in H2. destruct (Nat.ltb_spec a 2); [|lia].
  assert (C : 1 <= 0); [|lra]. apply H2; [|auto]. intros [C|[]]. lia.
Qed.

Example C68_linear_ts_two_rows_ex : forall xs, is_argsort xs (isort xs).
Proof. exact isort_ok. Qed.

(** ** C72: initialize() keeps what was learned *)

Theorem C72_linear_initialize_keeps_model argsort p :
  let q := lin_initialize p in
  ln_n_trial q = 0%nat /\ ln_action_counts q = zzeros (ln_n_actions p) /\
  ln_A_inv q = ln_A_inv p /\ ln_b q = ln_b p /\ ln_A_inv_temp q = ln_A_inv_temp p /\ ln_b_temp q = ln_b_temp p /\
  (forall epsilon context u choice,
     lin_eg_select_action argsort epsilon q context u choice = lin_eg_select_action argsort epsilon p context u choice) /\
  (forall epsilon context,
     lin_ucb_select_action argsort epsilon q context = lin_ucb_select_action argsort epsilon p context) /\
  (forall context mvn, lin_ts_select_action argsort q context mvn = lin_ts_select_action argsort p context mvn).
Proof. cbv zeta. repeat split. Qed.

(** So the object after initialize() need not behave like a new one: here the learned policy keeps choosing
    action 1, while for a new object all scores are equal. *)
Theorem C72_linear_initialize_not_fresh argsort :
  (forall xs, is_argsort xs (argsort xs)) ->
  exists p0, lin_post_init 1 2 1 1 = Ok p0 /\
  let h := [mkRound 1 1 (fun _ => 1)] in
  lin_eg_select_action argsort (Fin 0) (lin_initialize (lin_updates 1 p0 h)) [tabF 1 (fun _ => 1)] (1/2) [0%nat] = Ok [1%nat] /\
  ln_b (lin_initialize (lin_updates 1 p0 h)) <> ln_b p0.
Proof.
  intros Hs. assert (H0 : exists p0, lin_post_init 1 2 1 1 = Ok p0) by (eexists; reflexivity). destruct H0 as [p0 H0].
  exists p0. split; [exact H0|]. intros h.
  assert (Hv : forall e, In e h -> valid_action 2 (rd_action e)). { intros e [<-|[]]; unfold valid_action; simpl; lia. }
  split.
  - destruct (C92_greedy_by_ridge_regression argsort 1 2 1 1 p0 h 0 (fun _ => 1) (1/2) [0%nat] Hs H0 Hv) as (theta & Hmin & Huniq & HA & _).
    destruct HA as (l & E & ((R1 & R2 & R3) & _ & HB)); [lra|].
    assert (T : forall a w, (a < 2)%nat -> (forall t, w <> t -> ridge_loss 2 1 h a (fun _ => w) < ridge_loss 2 1 h a (fun _ => t)) -> theta a 0%nat = w).
    { intros a w Ha Hw. destruct (Req_dec (theta a 0%nat) w) as [|Hne]; auto. exfalso.
      assert (Ht : ridge_loss 2 1 h a (fun _ => w) < ridge_loss 2 1 h a (fun _ => theta a 0%nat)) by (apply Hw; auto).
      assert (Ee : ridge_loss 2 1 h a (fun _ => theta a 0%nat) = ridge_loss 2 1 h a (theta a)) by reflexivity.
      specialize (Hmin a (fun _ => w) Ha). change (committed 1 h) with h in Hmin. lra. }
    assert (T0 : theta 0%nat 0%nat = 0).
    { apply T; [lia|]. intros t Ht. unfold ridge_loss, dot, h. simpl. change (Pos.to_nat 1) with 1%nat. simpl. assert (0 < t * t) by (apply Rlt_0_sqr; auto). lra. }
    assert (T1 : theta 1%nat 0%nat = 1 / 2).
    { apply T; [lia|]. intros t Ht. unfold ridge_loss, dot, h. simpl. change (Pos.to_nat 1) with 1%nat. simpl.
      assert (0 < (t - 1/2) * (t - 1/2)) by (apply Rlt_0_sqr; lra). lra. }
    change (lin_eg_select_action argsort (Fin 0) (lin_updates 1 p0 h) [tabF 1 (fun _ => 1)] (1/2) [0%nat] = Ok [1%nat]).
    rewrite E. f_equal. destruct l as [|a [|b l]]; try discriminate. f_equal.
    assert (Ha : (a < 2)%nat) by (apply R3; left; auto). destruct a as [|[|a]]; [|auto|lia]. exfalso.
    specialize (HB 1%nat 0%nat ltac:(lia)). unfold dot in HB. simpl in HB. rewrite T0, T1 in HB.
    assert (0 + 1 * (1/2) <= 0 + 1 * 0); [|lra]. apply HB; [intros [C|[]]; discriminate|auto].
  - destruct (C71_inverse_of_committed_rounds 1 2 1 1 p0 h H0 Hv) as (M & _ & _ & Eb).
    destruct (C71_inverse_of_committed_rounds 1 2 1 1 p0 [] H0 ltac:(intros e [])) as (M0 & _ & _ & Eb0). simpl lin_updates in Eb0.
    change (ln_b (lin_updates 1 p0 h) <> ln_b p0). rewrite Eb, Eb0. unfold tab2F, tabF, tab, moment, committed, h. simpl.
    change (Pos.to_nat 1) with 1%nat. simpl. intros C. injection C as C. lra.
Qed.

Print Assumptions C71_inverse_of_committed_rounds.
Print Assumptions C71_updates_succeed.
Print Assumptions C71_bad_context_half_applied.
Print Assumptions C92_greedy_by_ridge_regression.
Print Assumptions C92_ucb_score.
Print Assumptions C92_ts_samples_ridge_posterior.
Print Assumptions C68_linear_valid_rankings.
Print Assumptions C68_linear_context_rows.
Print Assumptions C68_linear_ts_two_rows_out_of_range.
Print Assumptions C72_linear_initialize_keeps_model.
Print Assumptions C72_linear_initialize_not_fresh.
