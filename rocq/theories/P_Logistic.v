(** * P_Logistic: theorems about the logistic contextual policies (C68, C72, C73, C93). *)

From Coq Require Import Reals List ZArith Lia Lra Bool Permutation.
From Coquelicot Require Import Coquelicot.
From Verif Require Import Num NpList M_Utils M_Slate M_Multi M_Embed M_Policy M_Linear M_Logistic
  S_Base S_Tuning S_Policy S_Linear S_Logistic L_Num L_Base L_Tuning L_Embed L_Policy L_Linear L_Logistic.
Import ListNotations.
Open Scope R_scope.

Definition no_model : mblr := mkMblr NaN 0 [] [].

(** Data for the examples: an optimiser that returns the vector of ones, and a three-round history. *)
Definition ex_min : (list num -> res num) -> (list num -> res (list num)) -> list num -> list num :=
  fun _ _ _ => tabF 2 (fun _ => 1).
Definition ex_rounds : list round :=
  [mkRound 0 1 (fun i => INR i + 1); mkRound 1 0 (fun i => 1); mkRound (-2) 1 (fun i => INR i)].
Lemma ex_rounds_valid : forall e, In e ex_rounds -> valid_action 2 (rd_action e).
Proof. intros e [<-|[<-|[<-|[]]]]; unfold valid_action; simpl; lia. Qed.
Lemma log_post_init_ex : exists p, log_post_init (Fin 1) (Fin 1) 2 2 1 2 = Ok p.
Proof.
  unfold log_post_init, raise_if. cbn [nle].
  assert (E : Rleb 1 0 = false) by (apply Rleb_false; lra). rewrite E. cbn. eexists. reflexivity.
Qed.

(** ** C73: online logistic regression *)

(** The code's loss and gradient: the loss is the penalised logistic loss of the specification and the
    gradient's coordinates are its partial derivatives, at every point. *)
Theorem C73_gradient_is_exact al d n X y q m :
  (0 < n)%nat ->
  let o := mkMblr al d (tabF d m) (tabF d q) in
  (forall w, lr_loss o (tab2F n d X) (tabF n y) (tabF d w) = Ok (Fin (log_loss d n X y q m w))) /\
  (forall w, exists g, lr_grad o (tab2F n d X) (tabF n y) (tabF d w) = Ok (tabF d g) /\
     forall j, (j < d)%nat -> is_derive (fun t => log_loss d n X y q m (with_coord w j t)) (w j) (g j)).
Proof.
  intros Hn o. split. intros w. apply lr_loss_ok. intros w. exists (log_grad d n X y q m w). split.
  apply lr_grad_ok; auto. intros j Hj. apply grad_derives; auto.
Qed.

Example C73_gradient_ex : exists g,
  lr_grad (mkMblr (Fin 1) 2 (tabF 2 (fun _ => 0)) (tabF 2 (fun _ => 1))) (tab2F 1 2 (fun _ _ => 1)) (tabF 1 (fun _ => 1)) (tabF 2 (fun _ => 0))
  = Ok (tabF 2 g) /\ g 0%nat = 1 * (0 - 0) + -1 * (0 + 1 * 1 / (1 + exp (1 * (0 + 1 * 0 + 1 * 0)))).
Proof.
  eexists. split. apply lr_grad_ok. lia. reflexivity.
Qed.

(** Observations with reward 0 are invisible to the fit: loss and gradient do not depend on their contexts;
    each only adds the constant ln 2 to the loss. *)
Theorem C73_zero_rewards_are_ignored al d n X X' y q m w :
  (0 < n)%nat ->
  (forall i, (i < n)%nat -> y i <> 0 -> X i = X' i) ->
  let o := mkMblr al d (tabF d m) (tabF d q) in
  lr_loss o (tab2F n d X) (tabF n y) (tabF d w) = lr_loss o (tab2F n d X') (tabF n y) (tabF d w) /\
  lr_grad o (tab2F n d X) (tabF n y) (tabF d w) = lr_grad o (tab2F n d X') (tabF n y) (tabF d w) /\
  lr_loss o (tab2F n d X) (tabF n y) (tabF d w) =
    Ok (Fin (1 / 2 * sumn d (fun j => q j * (w j - m j) ^ 2) +
             sumn n (fun i => if Req_EM_T (y i) 0 then ln 2 else ln (1 + exp (- y i * dot d (X i) w))))).
Proof.
  intros Hn HX o. unfold o. rewrite !lr_loss_ok, !lr_grad_ok by auto.
  assert (T : forall Z i, y i = 0 -> ln (1 + exp (- y i * dot d (Z i) w)) = ln 2).
  { intros Z i ->. rewrite Ropp_0, Rmult_0_l, exp_0. reflexivity. }
  split; [|split].
  - do 2 f_equal. unfold log_loss. f_equal. apply sumn_ext. intros i Hi. destruct (Req_dec (y i) 0) as [E|E].
    rewrite !T by auto. reflexivity. rewrite (HX i Hi E). reflexivity.
  - f_equal. unfold tabF. apply tab_ext. intros j Hj. f_equal. unfold log_grad. f_equal. f_equal. apply sumn_ext. intros i Hi.
    destruct (Req_dec (y i) 0) as [E|E]. rewrite E. unfold Rdiv. ring. rewrite (HX i Hi E). reflexivity.
  - do 2 f_equal. unfold log_loss. f_equal. apply sumn_ext. intros i Hi. destruct (Req_EM_T (y i) 0); auto.
Qed.

Example C73_zero_rewards_ex : forall i, (i < 2)%nat -> (fun i => INR i) i <> 0 ->
  (fun i (_ : nat) => INR i) i = (fun i (_ : nat) => if Nat.eqb i 0 then 7 else INR i) i.
Proof. intros [|[|i]] Hi H; [simpl in H; lra|reflexivity|lia]. Qed.

(** If all rewards in the batch are 0 the previous parameters minimise the loss and the gradient there is
    zero: the policy learns nothing from an action that always fails. *)
Theorem C73_only_zero_rewards_learn_nothing al d n X q m :
  (0 < n)%nat -> (forall j, 0 <= q j) ->
  let o := mkMblr al d (tabF d m) (tabF d q) in
  (forall w, exists Lm Lw,
     lr_loss o (tab2F n d X) (tabF n (fun _ => 0)) (tabF d m) = Ok (Fin Lm) /\
     lr_loss o (tab2F n d X) (tabF n (fun _ => 0)) (tabF d w) = Ok (Fin Lw) /\ Lm <= Lw) /\
  lr_grad o (tab2F n d X) (tabF n (fun _ => 0)) (tabF d m) = Ok (tabF d (fun _ => 0)).
Proof.
  intros Hn Hq o. split.
  - intros w. eexists. eexists. unfold o. rewrite !lr_loss_ok. split; [reflexivity|split; [reflexivity|]].
    unfold log_loss. assert (E : forall w, sumn n (fun i => ln (1 + exp (- 0 * dot d (X i) w))) = INR n * ln 2).
    { intros v. rewrite <- sumn_const. apply sumn_ext. intros i Hi. rewrite Ropp_0, Rmult_0_l, exp_0. reflexivity. }
    rewrite !E. apply Rplus_le_compat_r. apply Rmult_le_compat_l; [lra|].
    apply sumn_le. intros j Hj. unfold Rminus. rewrite Rplus_opp_r. simpl. rewrite Rmult_0_l, Rmult_0_r.
    apply Rmult_le_pos; auto. rewrite Rmult_1_r. apply Rle_0_sqr.
  - unfold o. rewrite lr_grad_ok by auto. f_equal. unfold tabF. apply tab_ext. intros j Hj. f_equal. unfold log_grad.
    rewrite (sumn_zero n). ring. intros i Hi. unfold Rdiv. ring.
Qed.

Example C73_only_zero_rewards_ex : (0 < 3)%nat /\ forall j : nat, 0 <= (fun _ => 1) j.
Proof. split. lia. intros; lra. Qed.

(** A fit stores the optimiser's answer and adds to each precision the sum of P(1-P) x_j^2, where P is
    1 / (1 + exp(1 + x.m)). *)
Theorem C73_fit_effect minimize al d n X y q m w :
  (0 < n)%nat -> (0 < d)%nat ->
  (forall Lf G, minimize Lf G (tabF d m) = tabF d w) ->
  lr_fit minimize (mkMblr al d (tabF d m) (tabF d q)) (tab2F n d X) (tabF n y) =
    Ok (mkMblr al d (tabF d w) (tabF d (fit_precision d n X q w))) /\
  forall j, q j <= fit_precision d n X q w j.
Proof. intros Hn Hd Hm. split. apply lr_fit_ok; auto. intros j. apply fit_precision_ge. Qed.

Example C73_fit_ex : lr_fit ex_min (mkMblr (Fin 1) 2 (tabF 2 (fun _ => 0)) (tabF 2 (fun _ => 1))) (tab2F 1 2 (fun _ _ => 1)) (tabF 1 (fun _ => 1)) =
  Ok (mkMblr (Fin 1) 2 (tabF 2 (fun _ => 1)) (tabF 2 (fit_precision 2 1 (fun _ _ => 1) (fun _ => 1) (fun _ => 1)))).
Proof. apply C73_fit_effect; auto; reflexivity. Qed.

(** That is not the curvature of the logistic loss at the fitted point: the code adds 1 inside the
    exponential.  With parameters 0 and a single unit context the curvature is 1/4, the increment is less. *)
Theorem C73_precision_increment_is_not_curvature :
  let curvature := 1 / (1 + exp (- 0)) * (1 - 1 / (1 + exp (- 0))) in
  let increment := fit_precision 1 1 (fun _ _ => 1) (fun _ => 0) (fun _ => 0) 0 in
  curvature = 1 / 4 /\ increment < 1 / 4.
Proof.
  cbv zeta. split. rewrite Ropp_0, exp_0. field. unfold fit_precision, fit_prob, dot. simpl.
  replace (1 + (0 + 1 * 0)) with 1 by ring. pose proof (exp_increasing 0 1 ltac:(lra)) as H. rewrite exp_0 in H.
  set (p := / (1 + exp 1)). assert (Hp : 0 < p < / 2). { split. apply Rinv_0_lt_compat; lra. apply Rinv_lt_contravar; lra. }
  nra.
Qed.

(** Over any history of updates the precisions of every model stay at or above lambda and never decrease. *)
Theorem C73_precision_monotone minimize opt al lam d K L B p0 h e :
  log_post_init (Fin al) (Fin lam) (Z.of_nat d) (Z.of_nat K) (Z.of_nat L) (Z.of_nat B) = Ok p0 ->
  (forall Lf G x, minimize Lf G x = tabF d (opt Lf G x)) ->
  (forall e, In e h -> valid_action K (rd_action e)) ->
  valid_action K (rd_action e) ->
  let p := log_updates minimize d p0 h in
  let p' := fst (log_update_params minimize p (rd_action e) (Fin (rd_reward e)) [tabF d (rd_x e)]) in
  forall a, (a < K)%nat -> exists q q',
    lr_q (nth a (lg_models p) no_model) = tabF d q /\ lr_q (nth a (lg_models p') no_model) = tabF d q' /\
    forall j, (j < d)%nat -> lam <= q j /\ q j <= q' j.
Proof.
  intros H0 Hm Hv He p p' a Ha. apply (log_post_init_inv al lam _ _ _ _ p0 minimize) in H0 as (Hal & Hl & H1 & H2 & H3 & H4 & Hp0). rewrite !Nat2Z.id in Hp0.
  assert (Hp : log_after minimize al lam d K L B h p).
  { apply (log_updates_after minimize opt al lam d K L B h ltac:(lia) ltac:(lia) Hm Hv [] p0 Hp0). }
  destruct (log_update_after minimize opt al lam d K L B h p e ltac:(lia) ltac:(lia) Hm Hp He) as (_ & _ & Hq).
  destruct (Hq a Ha) as (q & q' & E1 & E2 & Hle). exists q, q'. split; [exact E1|split; [exact E2|]].
  intros j Hj. split; [|auto]. destruct Hp as [_ _ _ _ _ _ _ _ (m & q0 & Em & Hq0 & _)].
  rewrite Em, nth_tab in E1 by auto. cbn [lr_q] in E1.
  assert (Ej : nth j (tabF d (q0 a)) NaN = nth j (tabF d q) NaN) by (rewrite E1; reflexivity).
  unfold tabF in Ej. rewrite !nth_tab in Ej by auto. injection Ej as Ej. rewrite <- Ej. apply Hq0.
Qed.

Example C73_precision_monotone_ex : exists p0, log_post_init (Fin 1) (Fin 1) 2 2 1 2 = Ok p0 /\
  exists q, lr_q (nth 0 (lg_models (log_updates ex_min 2 p0 ex_rounds)) no_model) = tabF 2 q /\ 1 <= q 0%nat.
Proof.
  destruct log_post_init_ex as [p0 H0]. exists p0. split; [exact H0|].
  destruct (C73_precision_monotone ex_min (fun _ _ _ _ => 1) 1 1 2 2 1 2 p0 ex_rounds (mkRound 0 1 (fun _ => 1)) H0
    ltac:(reflexivity) ex_rounds_valid ltac:(unfold valid_action; simpl; lia) 0%nat ltac:(lia)) as (q & q' & E & _ & Hq).
  exists q. split; [exact E|]. apply Hq. lia.
Qed.

(** ** C93: every observation is used in exactly one fit *)

(** The complete batches and the pending rounds partition the history, in order. *)
Theorem C93_batches_partition {A} B (h : list A) : (0 < B)%nat ->
  concat (batches B h) ++ pending B h = h /\ (forall b, In b (batches B h) -> length b = B) /\ (length (pending B h) < B)%nat.
Proof.
  intros HB. split; [|split].
  - unfold batches, pending. assert (G : forall k, (k * B <= length h)%nat -> concat (tab k (fun k => firstn B (skipn (k * B) h))) = firstn (k * B) h).
    { induction k; intros Hk. reflexivity. rewrite tab_S, concat_app, IHk by lia. simpl concat. rewrite app_nil_r.
      replace (S k * B)%nat with (k * B + B)%nat by lia.
      rewrite <- (firstn_skipn (k * B) h) at 3. rewrite firstn_app. rewrite firstn_firstn. rewrite firstn_length.
      rewrite Nat.min_r by lia. f_equal. f_equal. lia. }
    rewrite G. apply firstn_skipn. pose proof (Nat.div_mod (length h) B ltac:(lia)). lia.
  - intros b Hb. unfold batches in Hb. apply In_tab in Hb as (k & Hk & <-). rewrite firstn_length, skipn_length.
    pose proof (Nat.div_mod (length h) B ltac:(lia)). assert (S k * B <= length h / B * B)%nat by (apply Nat.mul_le_mono_r; lia). lia.
  - unfold pending. rewrite skipn_length. pose proof (Nat.div_mod (length h) B ltac:(lia)).
    pose proof (Nat.mod_upper_bound (length h) B ltac:(lia)). lia.
Qed.

Example C93_batches_ex : batches 2 [1;2;3;4;5]%nat = [[1;2];[3;4]]%nat /\ pending 2 [1;2;3;4;5]%nat = [5]%nat.
Proof. split; reflexivity. Qed.

(** Each action's model is the fresh model fitted once per complete batch on exactly that batch's rounds of
    the action (batches without such rounds leave it alone); the pending rounds are what the lists hold. *)
Theorem C93_each_round_fitted_once minimize opt al lam d K L B p0 h :
  log_post_init (Fin al) (Fin lam) (Z.of_nat d) (Z.of_nat K) (Z.of_nat L) (Z.of_nat B) = Ok p0 ->
  (forall Lf G x, minimize Lf G x = tabF d (opt Lf G x)) ->
  (forall e, In e h -> valid_action K (rd_action e)) ->
  let p := log_updates minimize d p0 h in
  (forall a, (a < K)%nat ->
     fit_batches minimize K d a (nth a (lg_models p0) no_model) (batches B h) = Ok (nth a (lg_models p) no_model)) /\
  lg_reward_lists p = tab K (fun a => map (fun e => Fin (rd_reward e)) (rounds_of K a (pending B h))) /\
  lg_context_lists p = tab K (fun a => map (fun e => [tabF d (rd_x e)]) (rounds_of K a (pending B h))) /\
  lg_n_trial p = length h /\ length (lg_models p) = K.
Proof.
  intros H0 Hm Hv p. apply (log_post_init_inv al lam _ _ _ _ p0 minimize) in H0 as (Hal & Hl & H1 & H2 & H3 & H4 & Hp0). rewrite !Nat2Z.id in Hp0.
  assert (Hp : log_after minimize al lam d K L B h p).
  { apply (log_updates_after minimize opt al lam d K L B h ltac:(lia) ltac:(lia) Hm Hv [] p0 Hp0). }
  destruct Hp as [_ _ _ _ En _ Er Ec (m & q & Em & _ & Hf)]. split; [|split; [exact Er|split; [exact Ec|split; [exact En|rewrite Em; apply tab_length]]]].
  intros a Ha. destruct Hp0 as [_ _ _ _ _ _ _ _ (m0 & q0 & Em0 & _ & Hf0)].
  specialize (Hf0 a Ha). assert (Eb : batches B (@nil round) = []). { unfold batches. simpl length. rewrite Nat.div_0_l by lia. reflexivity. }
  rewrite Eb in Hf0. cbn [fit_batches] in Hf0. injection Hf0 as E1 E2. rewrite Em0, Em, !nth_tab by auto.
  rewrite <- (Hf a Ha), E1, E2. reflexivity.
Qed.

Example C93_each_round_ex : exists p0, log_post_init (Fin 1) (Fin 1) 2 2 1 2 = Ok p0 /\
  lg_reward_lists (log_updates ex_min 2 p0 ex_rounds) = [[Fin 1]; []].
Proof.
  destruct log_post_init_ex as [p0 H0]. exists p0. split; [exact H0|].
  destruct (C93_each_round_fitted_once ex_min (fun _ _ _ _ => 1) 1 1 2 2 1 2 p0 ex_rounds H0 ltac:(reflexivity) ex_rounds_valid) as (_ & E & _).
  rewrite E. reflexivity.
Qed.

(** ** C68 for logistic policies *)

(** With a (1, dim) context: the greedy branch of LogisticEpsilonGreedy ranks by x.m (equivalently by the
    predicted probability), LogisticUCB by probability plus epsilon times sqrt(sum x^2/q), LogisticTS by the
    sampled parameters; otherwise the random choice is returned. *)
Theorem C68_logistic_rankings argsort minimize opt al lam d K L B p0 h epsilon x u choice normal sample :
  (forall xs, is_argsort xs (argsort xs)) ->
  log_post_init (Fin al) (Fin lam) (Z.of_nat d) (Z.of_nat K) (Z.of_nat L) (Z.of_nat B) = Ok p0 ->
  (forall Lf G x, minimize Lf G x = tabF d (opt Lf G x)) ->
  (forall e, In e h -> valid_action K (rd_action e)) ->
  (forall a m s, normal a m s = tabF d (sample a m s)) ->
  let p := log_updates minimize d p0 h in
  exists m q,
    (forall a, (a < K)%nat -> lr_m (nth a (lg_models p) no_model) = tabF d (m a) /\ lr_q (nth a (lg_models p) no_model) = tabF d (q a)) /\
    (epsilon < u -> exists l, log_eg_select_action argsort (Fin epsilon) p [tabF d x] u choice = Ok l /\
                              best_first K L (fun a => dot d x (m a)) l) /\
    (u <= epsilon -> log_eg_select_action argsort (Fin epsilon) p [tabF d x] u choice = Ok choice) /\
    (exists l, log_ucb_select_action argsort (Fin epsilon) p [tabF d x] = Ok l /\
       best_first K L (fun a => 1 / (1 + exp (- dot d x (m a))) + epsilon * sqrt (sumn d (fun j => x j ^ 2 / q a j))) l) /\
    (exists l, log_ts_select_action argsort p [tabF d x] normal = Ok l /\
       best_first K L (fun a => dot d x (sample a (tabF d (m a)) (tabF d (fun j => al / q a j)))) l).
Proof.
  intros Hs H0 Hm Hv Hn p. apply (log_post_init_inv al lam _ _ _ _ p0 minimize) in H0 as (Hal & Hl & H1 & H2 & H3 & H4 & Hp0). rewrite !Nat2Z.id in Hp0.
  assert (Hp : log_after minimize al lam d K L B h p).
  { apply (log_updates_after minimize opt al lam d K L B h ltac:(lia) ltac:(lia) Hm Hv [] p0 Hp0). }
  destruct Hp as [_ _ EL _ _ _ _ _ (m & q & Em & Hq & _)]. exists m, q.
  assert (Hth : mapM (fun o => lr_predict_proba o [tabF d x]) (lg_models p) = Ok (tab K (fun a => [Fin (logistic (dot d x (m a)))]))).
  { rewrite Em. apply mapM_tab. intros a Ha. apply predict_ok. }
  split; [|split; [|split; [|split]]].
  - intros a Ha. rewrite Em, nth_tab by auto. auto.
  - intros Hu. unfold log_eg_select_action. simpl nlt. assert (Eu : Rltb epsilon u = true) by (apply Rltb_true; auto). rewrite Eu.
    rewrite Hth. cbn [bind]. rewrite concat_tab1. eexists. split; [reflexivity|]. rewrite EL.
    apply (best_first_mono K L (fun a => logistic (dot d x (m a)))). intros; symmetry; apply logistic_mono.
    apply top_k_best; auto. lia.
  - intros Hu. unfold log_eg_select_action. simpl nlt. assert (Eu : Rltb epsilon u = false) by (apply Rltb_false; lra). rewrite Eu. reflexivity.
  - unfold log_ucb_select_action. rewrite Hth. cbn [bind]. rewrite concat_tab1.
    rewrite Em. rewrite (mapM_tab K _ _ (fun a => Fin (sqrt (sumn d (fun j => x j ^ 2 / q a j))))).
    2:{ intros a Ha. unfold log_std. cbn [mapM lr_q].
        rewrite (map_F (ndiv (Fin 1)) (fun v => 1 / v)). 2:{ intros j Hj. apply ndiv_Fin. specialize (Hq a j). lra. }
        rewrite (map_F nsqr (fun v => v * v)) by reflexivity. rewrite (bcast2_F nmul Rmult) by reflexivity. cbn [bind concat].
        rewrite app_nil_r, nsum_tabF. rewrite nsqrt_Fin.
        - do 3 f_equal. apply sumn_ext. intros j Hj. specialize (Hq a j). field. lra.
        - apply sumn_nonneg. intros j Hj. specialize (Hq a j). apply Rmult_le_pos; [|apply Rle_0_sqr].
          unfold Rdiv. rewrite Rmult_1_l. apply Rlt_le, Rinv_0_lt_compat. lra. }
    cbn [bind]. rewrite map_tab, bcast2_tab. cbn [bind nmul nadd]. eexists. split; [reflexivity|]. rewrite EL.
    apply (top_k_best argsort K L (fun a => logistic (dot d x (m a)) + epsilon * sqrt (sumn d (fun j => x j ^ 2 / q a j)))); auto. lia.
  - unfold log_ts_select_action. rewrite Em, tab_length.
    replace (seq 0 K) with (tab K (fun i => i)) by (unfold tab; apply map_id). rewrite combine_tab.
    rewrite (mapM_tab K _ _ (fun a => [Fin (logistic (dot d x (sample a (tabF d (m a)) (tabF d (fun j => al / q a j)))))])).
    2:{ intros a Ha. cbn [fst snd]. unfold lr_predict_proba_with_sampling, lr_sd. cbn [lr_m lr_q lr_alpha].
        rewrite (map_F (fun v => nmul (Fin al) (ndiv (Fin 1) v)) (fun v => al / v)).
        2:{ intros j Hj. specialize (Hq a j). rewrite ndiv_Fin by lra. cbn. f_equal. field. lra. }
        rewrite Hn. unfold mat_dot. cbn [mapM]. rewrite vdot_tab. cbn. rewrite nsigmoid_Fin. reflexivity. }
    cbn [bind]. rewrite concat_tab1. eexists. split; [reflexivity|]. rewrite EL.
    apply (best_first_mono K L (fun a => logistic (dot d x (sample a (tabF d (m a)) (tabF d (fun j => al / q a j)))))).
    intros; symmetry; apply logistic_mono. apply top_k_best; auto. lia.
Qed.

(** A context of another dimension is a ValueError (from the matrix product) wherever the models are consulted; a
    random choice never looks at it. *)
Theorem C68_logistic_wrong_dimension argsort minimize opt al lam d K L B p0 h epsilon d' x u choice normal sample :
  log_post_init (Fin al) (Fin lam) (Z.of_nat d) (Z.of_nat K) (Z.of_nat L) (Z.of_nat B) = Ok p0 ->
  (forall Lf G x, minimize Lf G x = tabF d (opt Lf G x)) ->
  (forall e, In e h -> valid_action K (rd_action e)) ->
  (forall a m s, normal a m s = tabF d (sample a m s)) -> d' <> d ->
  let p := log_updates minimize d p0 h in
  (epsilon < u -> log_eg_select_action argsort (Fin epsilon) p [tabF d' x] u choice = Err ValueError) /\
  (u <= epsilon -> log_eg_select_action argsort (Fin epsilon) p [tabF d' x] u choice = Ok choice) /\
  log_ucb_select_action argsort (Fin epsilon) p [tabF d' x] = Err ValueError /\
  log_ts_select_action argsort p [tabF d' x] normal = Err ValueError.
Proof.
  intros H0 Hm Hv Hn Hd p. apply (log_post_init_inv al lam _ _ _ _ p0 minimize) in H0 as (Hal & Hl & H1 & H2 & H3 & H4 & Hp0). rewrite !Nat2Z.id in Hp0.
  assert (Hp : log_after minimize al lam d K L B h p).
  { apply (log_updates_after minimize opt al lam d K L B h ltac:(lia) ltac:(lia) Hm Hv [] p0 Hp0). }
  destruct Hp as [_ _ EL _ _ _ _ _ (m & q & Em & Hq & _)].
  assert (V : forall f, vdot (tabF d' x) (tabF d f) = Err ValueError).
  { intros f. unfold vdot, tabF. rewrite !tab_length, (proj2 (Nat.eqb_neq _ _) Hd). reflexivity. }
  destruct K as [|K]; [lia|].
  assert (Hth : mapM (fun o => lr_predict_proba o [tabF d' x]) (lg_models p) = Err ValueError).
  { rewrite Em, tab_S_first. cbn [mapM]. unfold lr_predict_proba, mat_dot. cbn [mapM lr_m]. rewrite V. reflexivity. }
  split; [|split; [|split]].
  - intros Hu. unfold log_eg_select_action. simpl nlt. rewrite (proj2 (Rltb_true epsilon u) Hu). rewrite Hth. reflexivity.
  - intros Hu. unfold log_eg_select_action. simpl nlt. assert (Eu : Rltb epsilon u = false) by (apply Rltb_false; lra). rewrite Eu. reflexivity.
  - unfold log_ucb_select_action. rewrite Hth. reflexivity.
  - unfold log_ts_select_action. rewrite Em, tab_length, tab_S_first. cbn [seq combine mapM fst snd].
    unfold lr_predict_proba_with_sampling, mat_dot. cbn [mapM]. rewrite Hn, V. reflexivity.
Qed.

Example C68_logistic_ex : exists p0 l, log_post_init (Fin 1) (Fin 1) 2 2 1 2 = Ok p0 /\
  log_ucb_select_action isort (Fin 1) (log_updates ex_min 2 p0 ex_rounds) [tabF 2 (fun _ => 1)] = Ok l /\ is_ranking 2 1 l.
Proof.
  destruct log_post_init_ex as [p0 H0].
  destruct (C68_logistic_rankings isort ex_min (fun _ _ _ _ => 1) 1 1 2 2 1 2 p0 ex_rounds 1 (fun _ => 1) (1/2) [0%nat]
     (fun _ _ _ => tabF 2 (fun _ => 1)) (fun _ _ _ _ => 1) isort_ok H0 ltac:(reflexivity) ex_rounds_valid ltac:(reflexivity))
    as (m & q & _ & _ & _ & (l & E & (HR & _)) & _).
  exists p0, l. auto.
Qed.

Definition ones_min : (list num -> res num) -> (list num -> res (list num)) -> list num -> list num := fun _ _ _ => [Fin 1].
Lemma two_action_state : exists p q0 q1, log_post_init (Fin 1) (Fin 1) 1 2 1 1 = Ok p /\
  lg_models p = [mkMblr (Fin 1) 1 [Fin 0] [Fin 1]; mkMblr (Fin 1) 1 [Fin 0] [Fin 1]] /\ lg_len_list p = 1%nat /\
  lg_models (fst (log_update_params ones_min p 1 (Fin 1) [[Fin 1]])) = [mkMblr (Fin 1) 1 [Fin 0] q0; mkMblr (Fin 1) 1 [Fin 1] q1] /\
  lg_len_list (fst (log_update_params ones_min p 1 (Fin 1) [[Fin 1]])) = 1%nat.
Proof.
  assert (H0 : exists p, log_post_init (Fin 1) (Fin 1) 1 2 1 1 = Ok p).
  { unfold log_post_init, raise_if. cbn [nle]. assert (E : Rleb 1 0 = false) by (apply Rleb_false; lra). rewrite E. cbn. eexists. reflexivity. }
  destruct H0 as [p H0]. exists p.
  pose proof (log_post_init_inv 1 1 _ _ _ _ p ones_min H0) as (_ & _ & _ & _ & _ & _ & Hp0).
  change (Z.to_nat 1) with 1%nat in Hp0. change (Z.to_nat 2) with 2%nat in Hp0.
  destruct Hp0 as [e1 e2 e3 e4 e5 e6 e7 e8 (m & q & Em & Hq & Hf)].
  assert (F : forall a, (a < 2)%nat -> tabF 1 (m a) = [Fin 0] /\ tabF 1 (q a) = [Fin 1]).
  { intros a Ha. specialize (Hf a Ha). injection Hf as Hf Hg. unfold tabF, tab. cbn. rewrite <- Hf, <- Hg. auto. }
  do 2 eexists. split; [exact H0|]. split; [|split; [exact e3|split]].
  - rewrite Em. unfold tab. cbn [map seq]. destruct (F 0%nat ltac:(lia)) as [-> ->]. destruct (F 1%nat ltac:(lia)) as [-> ->]. reflexivity.
  - unfold log_update_params. rewrite e2, e4, e5, e7, e8, Em. cbn [length]. change (np_index 2 1) with (@Ok nat 1%nat).
    change (Nat.eqb (1 mod 1) 0) with true. cbv iota zeta.
    change (pending 1 (@nil round)) with (@nil round). unfold tab at 1 2 3 4 5 6 7 8 9 10. cbn [map seq rounds_of filter set_nth nth app fit_loop].
    cbn [concat app].
    assert (LF := lr_fit_ok ones_min (Fin 1) 1 1 (fun _ _ => 1) (fun _ => 1) (q 1%nat) (m 1%nat) (fun _ => 1) ltac:(lia) ltac:(lia) ltac:(reflexivity)).
    change (tab2F 1 1 (fun _ _ => 1)) with [[Fin 1]] in LF. change (tabF 1 (fun _ => 1)) with [Fin 1] in LF.
    rewrite LF. cbn [fst snd lg_models]. destruct (F 0%nat ltac:(lia)) as [-> ->]. reflexivity.
  - unfold log_update_params. destruct (np_index _ _); [|exact e3]. destruct (Nat.eqb _ _); [|exact e3].
    destruct (snd (fit_loop _ _ _ _)); exact e3.
Qed.

(** The context's number of rows is not checked: with two rows the greedy branch can return an index that
    is not an action. *)
Theorem C68_logistic_two_rows_out_of_range argsort :
  (forall xs, is_argsort xs (argsort xs)) ->
  exists p l, log_post_init (Fin 1) (Fin 1) 1 2 1 1 = Ok p /\
  let p' := fst (log_update_params (fun _ _ _ => [Fin 1]) p 1 (Fin 1) [[Fin 1]]) in
  log_eg_select_action argsort (Fin 0) p' [[Fin 0]; [Fin 1]] (1/2) [0%nat] = Ok l /\
  length l = 1%nat /\ (2 <= nth 0 l 0)%nat.
Proof.
  intros Hs. destruct two_action_state as (p & q0 & q1 & H0 & _ & _ & EM & EL). exists p.
  set (s := fun i => if Nat.eqb i 3 then logistic 1 else logistic 0).
  exists (top_k argsort 1 (tabF 4 s)). split; [exact H0|].
  cbv zeta. fold ones_min. split.
  - unfold log_eg_select_action. simpl nlt. assert (Eu : Rltb 0 (1/2) = true) by (apply Rltb_true; lra). rewrite Eu, EM, EL.
    cbn [mapM]. unfold lr_predict_proba, mat_dot. cbn [mapM lr_m]. unfold vdot. cbn [length Nat.eqb combine map nsum fold_right fst snd nmul nadd bind].
    rewrite !nsigmoid_Fin. cbn [bind concat app]. f_equal. f_equal. unfold tabF, tab, s. cbn [map seq Nat.eqb].
    repeat f_equal; ring.
  - assert (HB := top_k_best argsort 4 1 s (Hs _) ltac:(lia)). destruct HB as ((R1 & R2 & R3) & _ & HB). split; [exact R2|].
    destruct (top_k argsort 1 (tabF 4 s)) as [|a [|b l]]; try discriminate. cbn [nth].
    destruct (Nat.eq_dec a 3) as [->|Ha]; [lia|]. exfalso.
    assert (C : s 3%nat <= s a). { apply HB; [lia| |left; auto]. intros [C|[]]. congruence. }
    unfold s in C. destruct (Nat.eqb_spec a 3); [contradiction|]. simpl in C. apply logistic_mono in C. lra.
Qed.

Example C68_logistic_two_rows_ex : forall xs, is_argsort xs (isort xs).
Proof. exact isort_ok. Qed.

(** ** C72: initialize() keeps the fitted models but drops pending observations *)

Theorem C72_logistic_initialize_keeps_models argsort p :
  let q := log_initialize p in
  lg_n_trial q = 0%nat /\ lg_models q = lg_models p /\
  lg_reward_lists q = repeat [] (lg_n_actions p) /\ lg_context_lists q = repeat [] (lg_n_actions p) /\
  (forall epsilon context u choice,
     log_eg_select_action argsort epsilon q context u choice = log_eg_select_action argsort epsilon p context u choice) /\
  (forall epsilon context,
     log_ucb_select_action argsort epsilon q context = log_ucb_select_action argsort epsilon p context) /\
  (forall context normal, log_ts_select_action argsort q context normal = log_ts_select_action argsort p context normal).
Proof. cbv zeta. repeat split. Qed.

(** So an initialized object is not a fresh one: after one update and [initialize] some greedy selection
    differs from the fresh object's, whatever sorting algorithm numpy uses. *)
Theorem C72_logistic_initialize_not_fresh argsort :
  (forall xs, is_argsort xs (argsort xs)) ->
  exists p, log_post_init (Fin 1) (Fin 1) 1 2 1 1 = Ok p /\
  let p' := log_initialize (fst (log_update_params ones_min p 1 (Fin 1) [[Fin 1]])) in
  exists x, log_eg_select_action argsort (Fin 0) p' [[Fin x]] (1/2) [0%nat] <>
            log_eg_select_action argsort (Fin 0) p [[Fin x]] (1/2) [0%nat].
Proof.
  intros Hs. destruct two_action_state as (p & q0 & q1 & H0 & Em & Elen & EM & EL). exists p. split; [exact H0|]. cbv zeta.
  assert (Eu : Rltb 0 (1/2) = true) by (apply Rltb_true; lra).
  assert (A : forall x, log_eg_select_action argsort (Fin 0) p [[Fin x]] (1/2) [0%nat] = Ok (top_k argsort 1 (tabF 2 (fun _ => logistic 0)))).
  { intros x. unfold log_eg_select_action. simpl nlt. rewrite Eu, Em, Elen. cbn [mapM].
    change (mkMblr (Fin 1) 1 [Fin 0] [Fin 1]) with (mkMblr (Fin 1) 1 (tabF 1 (fun _ => 0)) [Fin 1]).
    change [[Fin x]] with [tabF 1 (fun _ => x)]. rewrite predict_ok. unfold dot. simpl sumn. rewrite Rmult_0_r, Rplus_0_r. reflexivity. }
  set (s := fun x a => if Nat.eqb a 0 then logistic 0 else logistic x).
  assert (B : forall x, log_eg_select_action argsort (Fin 0) (log_initialize (fst (log_update_params ones_min p 1 (Fin 1) [[Fin 1]]))) [[Fin x]] (1/2) [0%nat]
     = Ok (top_k argsort 1 (tabF 2 (s x)))).
  { intros x. unfold log_eg_select_action. simpl nlt. rewrite Eu. cbn [log_initialize lg_models lg_len_list]. rewrite EM, EL. cbn [mapM].
    change [Fin 0] with (tabF 1 (fun _ => 0)). change [Fin 1] with (tabF 1 (fun _ => 1)).
    change [[Fin x]] with [tabF 1 (fun _ => x)]. rewrite !predict_ok. unfold dot. simpl sumn. rewrite Rmult_0_r, Rplus_0_r, Rmult_1_r, Rplus_0_l. reflexivity. }
  assert (C : forall x a b, (a < 2)%nat -> (b < 2)%nat -> s x b < s x a -> top_k argsort 1 (tabF 2 (s x)) = [a]).
  { intros x a b Ha Hb Hab. assert (HB := top_k_best argsort 2 1 (s x) (Hs _) ltac:(lia)). destruct HB as ((R1 & R2 & R3) & _ & HB).
    destruct (top_k argsort 1 (tabF 2 (s x))) as [|c [|? ?]]; try discriminate.
    destruct (Nat.eq_dec c a) as [->|Hc]; [reflexivity|]. exfalso.
    assert (c < 2)%nat by (apply R3; left; auto).
    assert (c = b) as -> by (assert (a <> b) by (intros ->; lra); lia).
    assert (D : s x a <= s x b). { apply HB; [lia| |left; auto]. intros [Q|[]]. congruence. } lra. }
  destruct (list_eq_dec Nat.eq_dec (top_k argsort 1 (tabF 2 (fun _ => logistic 0))) [1%nat]) as [E|E].
  - exists (-1). rewrite A, B. rewrite (C (-1) 0%nat 1%nat), E; try lia. discriminate.
    unfold s. simpl. apply Rnot_le_lt. intros Q. apply logistic_mono in Q. lra.
  - exists 1. rewrite A, B. rewrite (C 1 1%nat 0%nat); try lia. congruence.
    unfold s. simpl. apply Rnot_le_lt. intros Q. apply logistic_mono in Q. lra.
Qed.

Example C72_logistic_not_fresh_ex : forall xs, is_argsort xs (isort xs).
Proof. exact isort_ok. Qed.

Print Assumptions C73_gradient_is_exact.
Print Assumptions C73_zero_rewards_are_ignored.
Print Assumptions C73_only_zero_rewards_learn_nothing.
Print Assumptions C73_fit_effect.
Print Assumptions C73_precision_increment_is_not_curvature.
Print Assumptions C73_precision_monotone.
Print Assumptions C93_batches_partition.
Print Assumptions C93_each_round_fitted_once.
Print Assumptions C68_logistic_rankings.
Print Assumptions C68_logistic_two_rows_out_of_range.
Print Assumptions C72_logistic_initialize_keeps_models.
Print Assumptions C72_logistic_initialize_not_fresh.
Print Assumptions C68_logistic_wrong_dimension.
