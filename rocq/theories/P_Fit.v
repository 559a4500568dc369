(** * P_Fit: training the network learners. *)

From Coq Require Import Reals List ZArith Bool Lia Lra Permutation.
From Verif Require Import Num NpList M_Utils M_Feedback M_Cont M_Offline M_Init M_NN S_Base S_Offline S_Init S_NN
  L_Num L_Base L_Offline L_Init L_NN L_Slate L_Fit P_Offline P_Sim.
Import ListNotations.
Open Scope R_scope.

(** ** C127: fitting a policy *)

(** The schedule: the rounds split into a training and a (with early stopping only) validation part; every epoch goes
    through each part exactly once, in batches of the batch size except that the last may be smaller. *)
Theorem C127_schedule : forall cfg n perm sh, trainable cfg n perm sh ->
  exists b train val epochs,
    epochs_of cfg n perm sh = Ok epochs /\
    b = match tc_batch cfg with Some b => Z.to_nat b | None => Nat.min 200 n end /\
    Permutation (train ++ val) (seq 0 n) /\ train <> [] /\ (val = [] <-> tc_early cfg = false) /\
    length epochs = tc_max_iter cfg /\
    Forall (fun e => Permutation (concat (fst e)) train /\ Permutation (concat (snd e)) val /\
                     in_batches_of b (fst e) /\ in_batches_of b (snd e)) epochs.
Proof.
  intros cfg n perm sh Ht. destruct (trainable_batch _ _ _ _ Ht) as (b & Hb). pose proof Ht as (H1 & H2 & H3 & H4 & H5).
  destruct (epochs_ok cfg n perm sh b) as (train & val & epochs & E & P1 & P2 & P3 & _ & P4 & P5); auto.
  exists (Z.to_nat b), train, val, epochs. split; auto. split; auto.
  unfold batch_size_, check_scalar_Z in Hb. destruct (tc_batch cfg) as [b'|].
  - destruct (Z.ltb b' 1); cbn in Hb; [discriminate|]. injection Hb as <-. reflexivity.
  - injection Hb as <-. rewrite Z2Nat.inj_min, Nat2Z.id. reflexivity.
Qed.

(** An epoch has a batch of a single round exactly when the batch size is 1 or divides the number of training rounds
    with remainder 1. *)
Theorem C127_lone_round : forall cfg n perm sh epochs b train val, trainable cfg n perm sh ->
  epochs_of cfg n perm sh = Ok epochs -> batch_size_ (tc_batch cfg) n = Ok b -> data_split cfg n perm = Ok (train, val) ->
  forall e, In e epochs ->
    ((exists x, In x (fst e) /\ length x = 1%nat) <-> (Z.to_nat b = 1 \/ length train mod Z.to_nat b = 1)%nat).
Proof.
  intros cfg n perm sh epochs b train val Ht He Hb Hs e Hin. pose proof Ht as (H1 & H2 & H3 & H4 & H5).
  destruct (epochs_ok cfg n perm sh b) as (train' & val' & epochs' & E & P1 & P2 & P3 & E' & P4 & P5); auto.
  rewrite He in E. injection E as <-. rewrite Hs in E'. injection E' as <- <-.
  rewrite Forall_forall in P5. destruct (P5 e Hin) as (Q1 & _ & Q2 & _).
  assert (Hb1 : (1 <= Z.to_nat b)%nat).
  { unfold batch_size_, check_scalar_Z in Hb. destruct (tc_batch cfg) as [b'|].
    - destruct (Z.ltb_spec b' 1); cbn in Hb; [discriminate|]. injection Hb as <-. lia.
    - injection Hb as <-. lia. }
  rewrite <- (Permutation_length Q1). apply batch_of_one; auto. rewrite (Permutation_length Q1). destruct train; [easy|simpl; lia].
Qed.

(** On valid data [fit] returns, and its outcome is that of the abstract training loop (C76) on this schedule with this
    loss: on a batch of at least two rounds minus the mean of the surrogate gradients (C75) of exactly those rounds, plus the
    regularisers; on a single round NaN. *)
Theorem C127_fit : forall (P : Type) (out : P -> arr1 -> arr1) (pi : P -> list num -> nat -> R) update dim K len_list o lambda lv policy_reg var_reg q
    cfg perm sh n ctx a r p position th0,
  trainable cfg n perm sh -> positions_for n len_list position -> nn_lambda o (option_map Fin lambda) = Ok lv ->
  (forall th i, (i < n)%nat -> out th (ctx i) = tabF K (pi th (ctx i)) /\ forall c, (c < K)%nat -> 0 < pi th (ctx i) c) ->
  (forall i, (i < n)%nat -> (a i < K)%nat) -> (forall i, (i < n)%nat -> 0 < p i) ->
  exists loss epochs,
    epochs_of cfg n perm sh = Ok epochs /\
    policy_fit out update dim K len_list o lv (Fin policy_reg) (Fin var_reg) (Ok (fun x => tabF K (q x))) (Ok tt) cfg perm sh dim
      (tab n ctx) (tabZ n a) (tabF n r) (Some (tabF n p)) position th0
      = Ok (fit_loop (fun th idx => (update th idx, loss th idx)) loss (tc_tol cfg) (tc_no_change cfg) (tc_early cfg) epochs th0) /\
    forall th idx, Forall (fun i => (i < n)%nat) idx ->
      let b := batch_at K ctx a r p q idx in
      let m := length idx in
      let cur := played_at ctx (pi th) idx in
      (m = 1%nat -> loss th idx = NaN) /\
      ((2 <= m)%nat -> exists S,
         policy_grad_arr o lv (b_model b) (tab2F m K cur) (tab2F m K cur) (b_actions b) (b_rewards b) (b_pscores b) = Ok (tabF m S) /\
         loss th idx = Fin (- avg m S + policy_reg * ln (avg m (b_weight b cur)) + var_reg * variance1 m S)).
Proof.
  intros P out pi update dim K len_list o lambda lv pr vr q cfg perm sh n ctx a r p position th0 Ht Hpos Hlv Hout Ha Hp.
  destruct (C127_schedule cfg n perm sh Ht) as (b & train & val & epochs & He & _).
  destruct (trainable_batch _ _ _ _ Ht) as (bs & Hbs).
  set (qh := match o with Dm | Dr => fun x => tabF K (q x) | _ => fun _ => [] end).
  assert (Hqh : match o with Dm | Dr => forall i, (i < n)%nat -> qh (ctx i) = tabF K (q (ctx i)) | _ => True end) by (unfold qh; destruct o; auto).
  exists (loss_num out n ctx a r p o lv pr vr qh), epochs. split; auto. split.
  - unfold policy_fit. rewrite (feedback_ok_none n K).
    + cbn [bind]. unfold check_dim. rewrite Nat.eqb_refl. cbn [negb raise_if bind].
      replace (match o with Dm | Dr => Ok (fun x => tabF K (q x)) | _ => Ok (fun _ => []) end) with (Ok qh) by (unfold qh; destruct o; reflexivity).
      cbn [bind]. rewrite tab_length, Hbs. cbn [bind].
      replace (negb (Z.eqb len_list 1) && match position with None => true | _ => false end) with false.
      2:{ unfold positions_for in Hpos. destruct position; [rewrite andb_false_r; auto|]. subst. reflexivity. }
      cbn [raise_if bind]. rewrite He. cbn [bind]. apply fit_total. intros e th idx Hin Hidx.
      destruct (epoch_batches cfg n perm sh epochs e idx Ht He Hin Hidx) as (Hne & Hlt).
      apply (policy_loss_total out pi n K ctx a r p q o lambda lv pr vr); auto.
    + destruct Ht; lia.
    + auto.
    + exists p. auto.
    + unfold positions_for in Hpos. destruct position; auto.
    + apply tab_length.
  - intros th idx Hidx. cbn zeta. split.
    + intros H1. unfold loss_num. rewrite (policy_loss_single out pi n K ctx a r p q o lambda); auto.
    + intros H2. destruct (policy_loss_value out pi n K ctx a r p q o lambda lv pr vr Hlv Hout Ha Hp qh Hqh th idx Hidx H2) as (S & E1 & E2).
      exists S. split; auto. unfold loss_num. rewrite E2. reflexivity.
Qed.

(** Without propensities the logging policy is taken to be uniform. *)
Theorem C127_default_pscore : forall (P : Type) (out : P -> arr1 -> arr1) update dim K len_list o lv policy_reg var_reg q_fitted opt
    cfg perm sh cols context action reward position th0, (0 < K)%nat ->
  check_bandit_feedback_inputs context action reward None position None None = Ok tt ->
  policy_fit out update dim K len_list o lv policy_reg var_reg q_fitted opt cfg perm sh cols context action reward None position th0 =
  policy_fit out update dim K len_list o lv policy_reg var_reg q_fitted opt cfg perm sh cols context action reward
    (Some (map (fun _ => Fin (1 / INR K)) action)) position th0.
Proof.
  intros P out update dim K len_list o lv pr vr qf opt cfg perm sh cols context action reward position th0 HK Hok.
  assert (HKR : 0 < INR K) by (apply (lt_INR 0); auto).
  assert (Hok' : check_bandit_feedback_inputs context action reward None position (Some (map (fun _ => Fin (1 / INR K)) action)) None = Ok tt).
  { apply (decides_Ok _ _ (C94_feedback_validator _ _ _ _ _ _ _)).
    destruct (C94_feedback_validator context action reward None position None None) as [(_ & HH)|(E & _)]; [|congruence].
    rewrite map_length. split; [tauto|]. split; [tauto|]. split; [tauto|]. split; [tauto|]. split; [|tauto]. split; auto.
    rewrite Forall_map. apply Forall_forall. intros z _. cbn. apply Rleb_false. apply Rdiv_lt_0_compat; lra. }
  unfold policy_fit. rewrite Hok, Hok'. cbn [bind]. rewrite ndiv_Fin by lra. reflexivity.
Qed.

(** What [fit] refuses. *)
Theorem C127_rejects : forall (P : Type) (out : P -> arr1 -> arr1) update dim K len_list o lv policy_reg var_reg q_fitted opt
    cfg perm sh cols context action reward pscore position th0,
  let outcome := policy_fit out update dim K len_list o lv policy_reg var_reg q_fitted opt cfg perm sh cols context action reward pscore position th0 in
  let valid := check_bandit_feedback_inputs context action reward None position pscore None in
  (valid <> Ok tt -> outcome = Err ValueError) /\
  (valid = Ok tt -> cols <> dim -> outcome = Err ValueError) /\
  (valid = Ok tt -> cols = dim -> (o = Dm \/ o = Dr) -> forall e, q_fitted = Err e -> outcome = Err e) /\
  (valid = Ok tt -> cols = dim -> o <> Dm -> o <> Dr -> opt = Ok tt -> (exists b, batch_size_ (tc_batch cfg) (length context) = Ok b) ->
     len_list <> 1%Z -> position = None -> outcome = Err TypeError) /\
  (valid = Ok tt -> cols = dim -> o <> Dm -> o <> Dr -> opt = Ok tt -> len_list = 1%Z ->
     (exists b, batch_size_ (tc_batch cfg) (length context) = Ok b) -> tc_early cfg = true -> length context = 1%nat -> outcome = Err ValueError).
Proof.
  intros P out update dim K len_list o lv pr vr qf opt cfg perm sh cols context action reward pscore position th0 outcome valid.
  unfold outcome, policy_fit. fold valid. repeat split.
  - intros Hv. destruct (C94_feedback_validator context action reward None position pscore None) as [(E & _)|(E & _)]; fold valid in E; [contradiction|]. rewrite E. reflexivity.
  - intros Hv Hc. rewrite Hv. cbn [bind]. unfold check_dim. rewrite (proj2 (Nat.eqb_neq _ _) Hc). reflexivity.
  - intros Hv -> Ho e ->. rewrite Hv. cbn [bind]. unfold check_dim. rewrite Nat.eqb_refl. cbn [negb raise_if bind]. destruct Ho as [->| ->]; reflexivity.
  - intros Hv -> N1 N2 -> (b & Hb) Hl ->. rewrite Hv. cbn [bind]. unfold check_dim. rewrite Nat.eqb_refl. cbn [negb raise_if bind].
    rewrite Hb, (proj2 (Z.eqb_neq _ _) Hl). destruct o; try easy; reflexivity.
  - intros Hv -> N1 N2 -> -> (b & Hb) He Hn. rewrite Hv. cbn [bind]. unfold check_dim. rewrite Nat.eqb_refl. cbn [negb raise_if bind].
    rewrite Hb. unfold epochs_of, data_split, split_sizes. rewrite Hb, He, Hn. destruct o; try easy; reflexivity.
Qed.

(** A logged action outside the action set in a training round is an IndexError when the first epoch has at most
    [n_iter_no_change] batches (otherwise the epoch may be cut before the round is met). *)
Theorem C127_unknown_action : forall (P : Type) (out : P -> arr1 -> arr1) (pi : P -> list num -> nat -> R) update dim K len_list o lambda lv policy_reg var_reg q
    cfg perm sh n ctx a r p position th0 b train val i,
  trainable cfg n perm sh -> positions_for n len_list position -> nn_lambda o (option_map Fin lambda) = Ok lv ->
  (forall th i, (i < n)%nat -> out th (ctx i) = tabF K (pi th (ctx i)) /\ forall c, (c < K)%nat -> 0 < pi th (ctx i) c) ->
  (forall i, (i < n)%nat -> 0 < p i) ->
  (1 <= tc_max_iter cfg)%nat -> batch_size_ (tc_batch cfg) n = Ok b -> (Z.of_nat (S ((n - 1) / Z.to_nat b)) <= tc_no_change cfg)%Z ->
  data_split cfg n perm = Ok (train, val) -> In i train -> (K <= a i)%nat ->
  policy_fit out update dim K len_list o lv (Fin policy_reg) (Fin var_reg) (Ok (fun x => tabF K (q x))) (Ok tt) cfg perm sh dim
    (tab n ctx) (tabZ n a) (tabF n r) (Some (tabF n p)) position th0 = Err IndexError.
Proof.
  intros P out pi update dim K len_list o lambda lv pr vr q cfg perm sh n ctx a r p position th0 b train val i
    Ht Hpos Hlv Hout Hp Hmi Hbs Hnic Hs Hi Hk.
  pose proof Ht as (H1 & H2 & H3 & H4 & H5).
  destruct (epochs_ok cfg n perm sh b) as (train' & val' & epochs & He & P1 & P2 & P3 & E' & P4 & P5); auto.
  rewrite Hs in E'. injection E' as <- <-.
  assert (Hb1 : (1 <= Z.to_nat b)%nat).
  { unfold batch_size_, check_scalar_Z in Hbs. destruct (tc_batch cfg) as [b'|].
    - destruct (Z.ltb_spec b' 1); cbn in Hbs; [discriminate|]. injection Hbs as <-. lia.
    - injection Hbs as <-. lia. }
  set (qh := match o with Dm | Dr => fun x => tabF K (q x) | _ => fun _ => [] end).
  unfold policy_fit. rewrite (feedback_ok_none n (S (list_max (map a (seq 0 n))))).
  2:{ lia. }
  2:{ intros j Hj. apply Nat.lt_succ_r. pose proof (proj1 (list_max_le (map a (seq 0 n)) _) (le_n _)) as Hmax. rewrite Forall_forall in Hmax. apply Hmax.
      apply in_map. apply in_seq. lia. }
  2:{ exists p. auto. }
  2:{ unfold positions_for in Hpos. destruct position; auto. }
  2:{ apply tab_length. }
  cbn [bind]. unfold check_dim. rewrite Nat.eqb_refl. cbn [negb raise_if bind].
  replace (match o with Dm | Dr => Ok (fun x => tabF K (q x)) | _ => Ok (fun _ => []) end) with (Ok qh) by (unfold qh; destruct o; reflexivity).
  cbn [bind]. rewrite tab_length, Hbs. cbn [bind].
  replace (negb (Z.eqb len_list 1) && match position with None => true | _ => false end) with false.
  2:{ unfold positions_for in Hpos. destruct position; [rewrite andb_false_r; auto|]. subst. reflexivity. }
  cbn [raise_if bind]. rewrite He. cbn [bind].
  set (loss := policy_loss out qh o lv (Fin pr) (Fin vr) (tab n ctx) (tabZ n a) (tabF n r) (tabF n p)).
  assert (Hloss : forall idx, idx <> [] -> Forall (fun j => (j < n)%nat) idx ->
            (Forall (fun j => (a j < K)%nat) idx -> forall th, exists v, loss th idx = Ok v) /\
            ((exists j, In j idx /\ (K <= a j)%nat) -> forall th, loss th idx = Err IndexError)).
  { intros idx Hne Hidx. split.
    - intros Hgood th. set (a' := fun j => if Nat.ltb (a j) K then a j else 0%nat).
      assert (HK : (0 < K)%nat) by (destruct idx as [|j idx]; [easy|]; inversion Hgood; lia).
      assert (Ea : loss th idx = policy_loss out qh o lv (Fin pr) (Fin vr) (tab n ctx) (tabZ n a') (tabF n r) (tabF n p) th idx).
      { unfold loss, policy_loss. unfold tabZ. rewrite !gather_tab by auto. f_equal. apply tab_ext. intros j Hj. unfold a'.
        rewrite Forall_forall in Hgood. specialize (Hgood _ (nth_In idx 0%nat Hj)). apply Nat.ltb_lt in Hgood. rewrite Hgood. reflexivity. }
      rewrite Ea. eexists. apply (policy_loss_total out pi n K ctx a' r p q o lambda lv pr vr); auto.
      + intros j Hj. unfold a'. destruct (Nat.ltb_spec (a j) K); auto.
      + unfold qh. destruct o; auto.
    - intros (j & Hj & Hkj) th. destruct (In_nth idx j 0%nat Hj) as (m & Hm & Em).
      unfold loss. rewrite (policy_loss_batch out pi n K ctx a r p q o lambda); auto.
      + unfold b_model, b_actions. change (bt_n (batch_at K ctx a r p q idx)) with (length idx).
        apply (nn_loss_unknown o lv (Fin pr) (Fin vr) (length idx) K _ _ (fun i => a (nth i idx 0%nat)) _ _ m); auto. rewrite Em. auto.
      + unfold qh. destruct o; auto. }
  destruct epochs as [|e0 ep]; [simpl in P4; lia|]. unfold fit_loop_r. cbn [loopM].
  rewrite train_unknown with (e := IndexError); [reflexivity| | | |].
  - cbn [ts_counter]. inversion P5 as [|? ? (Q1 & _ & Q2 & _) _]; subst. pose proof (batch_count _ _ Hb1 Q2) as Hc. rewrite (Permutation_length Q1) in Hc.
    assert (length train <= n)%nat by (pose proof (Permutation_length P1) as Hl; rewrite app_length, seq_length in Hl; lia).
    assert ((length train - 1) / Z.to_nat b <= (n - 1) / Z.to_nat b)%nat by (apply Nat.div_le_mono; lia). lia.
  - cbn; lia.
  - intros idx Hidx. destruct (epoch_batches cfg n perm sh _ e0 idx Ht He (or_introl eq_refl) (or_introl Hidx)) as (Hne & Hlt).
    destruct (Hloss idx Hne Hlt) as (L1 & L2).
    destruct (Forall_Exists_dec (fun j => (a j < K)%nat) (fun j => lt_dec (a j) K) idx) as [Hf|Hf]; [left; apply L1; auto|right; apply L2].
    apply Exists_exists in Hf as (j & Hj & Hn). exists j. split; auto. lia.
  - inversion P5 as [|? ? (Q1 & _) _]; subst. assert (Hin : In i (concat (fst e0))) by (eapply Permutation_in; [apply Permutation_sym; eauto|auto]).
    apply in_concat in Hin as (idx & Hidx & Hin). exists idx. split; auto.
    destruct (epoch_batches cfg n perm sh _ e0 idx Ht He (or_introl eq_refl) (or_introl Hidx)) as (Hne & Hlt).
    apply (Hloss idx Hne Hlt). eauto.
Qed.

(** ** C128: reward models *)

(** [QFuncEstimator.fit] on valid data is the training loop with, as loss of a batch, the mean squared error of the
    network's output at the logged actions of that batch. *)
Theorem C128_fit : forall (P : Type) (out : P -> arr1 -> arr1) (q : P -> list num -> nat -> R) update dim K cfg perm sh n ctx a r th0,
  trainable cfg n perm sh -> (forall th i, (i < n)%nat -> out th (ctx i) = tabF K (q th (ctx i))) -> (forall i, (i < n)%nat -> (a i < K)%nat) ->
  exists loss epochs,
    epochs_of cfg n perm sh = Ok epochs /\
    q_fit out update dim (Ok tt) cfg perm sh dim (tab n ctx) (tabZ n a) (tabF n r) th0
      = Ok (fit_loop (fun th idx => (update th idx, loss th idx)) loss (tc_tol cfg) (tc_no_change cfg) (tc_early cfg) epochs th0) /\
    forall th idx, idx <> [] -> Forall (fun i => (i < n)%nat) idx ->
      loss th idx = Fin (squared_error r (fun i => q th (ctx i) (a i)) idx).
Proof.
  intros P out q update dim K cfg perm sh n ctx a r th0 Ht Hout Ha.
  destruct (C127_schedule cfg n perm sh Ht) as (b & train & val & epochs & He & _).
  assert (Hl : forall th idx, idx <> [] -> Forall (fun i => (i < n)%nat) idx ->
            q_loss out (tab n ctx) (tabZ n a) (tabF n r) th idx = Ok (Fin (squared_error r (fun i => q th (ctx i) (a i)) idx))).
  { intros th idx Hne Hidx. unfold q_loss, tabZ, tabF. rewrite !gather_tab by auto. rewrite map_tab.
    rewrite (tab_ext (length idx) _ (fun i => tab K (fun c => Fin (q th (ctx (nth i idx 0%nat)) c)))).
    2:{ intros i Hi. apply Hout. rewrite Forall_forall in Hidx. apply Hidx, nth_In; auto. }
    change (tab (length idx) (fun i => Z.of_nat (a (nth i idx 0%nat)))) with (tabZ (length idx) (fun i => a (nth i idx 0%nat))).
    rewrite pick_tab. 2:{ intros i Hi. apply Ha. rewrite Forall_forall in Hidx. apply Hidx, nth_In; auto. }
    cbn [bind]. pose proof (mse_tab (length idx) (fun i => r (nth i idx 0%nat)) (fun i => q th (ctx (nth i idx 0%nat)) (a (nth i idx 0%nat)))) as Hm.
    unfold tabF in Hm. rewrite Hm by (destruct idx; [easy|simpl; lia]). do 2 f_equal. unfold squared_error. apply avg_ext. intros; ring. }
  exists (fun th idx => Fin (squared_error r (fun i => q th (ctx i) (a i)) idx)), epochs. split; auto. split; auto.
  unfold q_fit. rewrite (feedback_ok_none n K); auto; [|destruct Ht; lia|apply tab_length].
  cbn [bind]. unfold check_dim. rewrite Nat.eqb_refl. cbn [negb raise_if bind]. rewrite tab_length, He. cbn [bind].
  apply fit_total. intros e th idx Hin Hidx. destruct (epoch_batches cfg n perm sh epochs e idx Ht He Hin Hidx) as (Hne & Hlt). auto.
Qed.

(** [QFuncEstimatorForContinuousAction.fit]: the same, for the prediction at the logged (context, action). *)
Theorem C128_fit_continuous : forall (P : Type) (out : P -> arr1 -> num) (q : P -> list num -> num -> R) update dim cfg perm sh n ctx act r th0,
  trainable cfg n perm sh -> (forall th i, (i < n)%nat -> out th (ctx i ++ [act i]) = Fin (q th (ctx i) (act i))) ->
  exists loss epochs,
    epochs_of cfg n perm sh = Ok epochs /\
    q_cont_fit out update dim (Ok tt) cfg perm sh dim (tab n ctx) (tab n act) (tabF n r) th0
      = Ok (fit_loop (fun th idx => (update th idx, loss th idx)) loss (tc_tol cfg) (tc_no_change cfg) (tc_early cfg) epochs th0) /\
    forall th idx, idx <> [] -> Forall (fun i => (i < n)%nat) idx ->
      loss th idx = Fin (squared_error r (fun i => q th (ctx i) (act i)) idx).
Proof.
  intros P out q update dim cfg perm sh n ctx act r th0 Ht Hout.
  destruct (C127_schedule cfg n perm sh Ht) as (b & train & val & epochs & He & _).
  destruct (trainable_batch _ _ _ _ Ht) as (bs & Hbs).
  assert (Hl : forall th idx, idx <> [] -> Forall (fun i => (i < n)%nat) idx ->
            q_cont_loss out (tab n ctx) (tab n act) (tabF n r) th idx = Ok (Fin (squared_error r (fun i => q th (ctx i) (act i)) idx))).
  { intros th idx Hne Hidx. unfold q_cont_loss, tabF. rewrite !gather_tab by auto.
    replace (map _ idx) with (tab (length idx) (fun i => Fin (q th (ctx (nth i idx 0%nat)) (act (nth i idx 0%nat))))).
    2:{ rewrite (map_as_tab _ 0%nat). apply tab_ext. intros i Hi.
        assert (nth i idx 0 < n)%nat by (rewrite Forall_forall in Hidx; apply Hidx, nth_In; auto). rewrite !nth_tab by auto. symmetry. apply Hout; auto. }
    pose proof (mse_tab (length idx) (fun i => r (nth i idx 0%nat)) (fun i => q th (ctx (nth i idx 0%nat)) (act (nth i idx 0%nat)))) as Hm.
    unfold tabF in Hm. rewrite Hm by (destruct idx; [easy|simpl; lia]). do 2 f_equal. unfold squared_error. apply avg_ext. intros; ring. }
  exists (fun th idx => Fin (squared_error r (fun i => q th (ctx i) (act i)) idx)), epochs. split; auto. split; auto.
  unfold q_cont_fit, check_continuous_bandit_feedback_inputs. cbn [bind]. unfold check_dim. unfold tabF. rewrite !tab_length, !Nat.eqb_refl. cbn [negb raise_if bind].
  rewrite Hbs. cbn [bind]. rewrite He. cbn [bind].
  apply fit_total. intros e th idx Hin Hidx. destruct (epoch_batches cfg n perm sh epochs e idx Ht He Hin Hidx) as (Hne & Hlt). auto.
Qed.

(** The continuous reward model refuses data of unequal lengths and data without rounds: [fit] returns only on one action
    and one reward per context, with the declared number of columns, and at least one round when the batch size is 'auto'. *)
Theorem C128_rejects_continuous : forall (P : Type) (out : P -> arr1 -> num) update dim opt cfg perm sh cols context action reward th0,
  let outcome := q_cont_fit out update dim opt cfg perm sh cols context action reward th0 in
  (forall st, outcome = Ok st -> cols = dim /\ opt = Ok tt /\ length action = length context /\ length reward = length context /\ match tc_batch cfg with Some b => (1 <= b)%Z | None => context <> [] end) /\
  (cols <> dim -> outcome = Err ValueError) /\
  (cols = dim -> opt = Ok tt -> (forall b, tc_batch cfg = Some b -> (1 <= b)%Z) ->
     (length action <> length context -> outcome = Err ValueError) /\
     (length action = length context -> length reward <> length context -> outcome = Err AssertionErr) /\
     (length action = length context -> length reward = length context -> tc_batch cfg = None -> context = [] -> outcome = Err ValueError)).
Proof.
  intros P out update dim opt cfg perm sh cols context action reward th0 outcome. unfold outcome, q_cont_fit, check_continuous_bandit_feedback_inputs, check_dim. cbn [bind].
  split; [|split].
  - intros st. destruct (Nat.eqb_spec cols dim) as [->|]; cbn [negb raise_if bind]; [|discriminate].
    destruct opt as [[]|]; cbn [bind]; [|discriminate]. destruct (batch_size_ (tc_batch cfg) (length context)) as [b|] eqn:Hb; cbn [bind]; [|discriminate].
    destruct (Nat.eqb_spec (length context) (length action)) as [E1|]; cbn [negb raise_if bind]; [|discriminate].
    destruct (Nat.eqb_spec (length context) (length reward)) as [E2|]; cbn [negb raise_if bind]; [|discriminate].
    unfold epochs_of. rewrite Hb. cbn [bind]. destruct (data_split cfg (length context) perm) as [tv|]; cbn [bind]; [|discriminate].
    destruct (Z.leb_spec b 0) as [|Hpos]; [rewrite orb_true_r; discriminate|]. intros _. repeat split; auto.
    unfold batch_size_, check_scalar_Z in Hb. destruct (tc_batch cfg) as [b'|].
    + destruct (Z.ltb_spec b' 1); cbn in Hb; [discriminate|]. auto.
    + injection Hb as <-. intros ->. simpl in Hpos. lia.
  - intros H. rewrite (proj2 (Nat.eqb_neq _ _) H). reflexivity.
  - intros -> -> Hb. rewrite Nat.eqb_refl. cbn [negb raise_if bind].
    assert (Hbs : exists b, batch_size_ (tc_batch cfg) (length context) = Ok b).
    { unfold batch_size_, check_scalar_Z. destruct (tc_batch cfg) as [b'|]; [|eauto]. specialize (Hb b' eq_refl). destruct (Z.ltb_spec b' 1); [lia|]. cbn. eauto. }
    destruct Hbs as (b & Hbs). rewrite Hbs. cbn [bind]. split; [|split].
    + intros H. rewrite (proj2 (Nat.eqb_neq _ _)) by (intro; apply H; auto). reflexivity.
    + intros E H. rewrite E, Nat.eqb_refl. cbn [negb raise_if bind]. rewrite (proj2 (Nat.eqb_neq _ _)) by (intro; apply H; auto). reflexivity.
    + intros E1 E2 Hc ->. rewrite E1, E2, Nat.eqb_refl. cbn [negb raise_if bind]. unfold epochs_of. rewrite Hbs. cbn [bind].
      rewrite Hc in Hbs. cbn in Hbs. injection Hbs as <-. unfold data_split, split_sizes. destruct (tc_early cfg).
      * reflexivity.
      * cbn. destruct (tc_shuffle cfg); reflexivity.
Qed.

(** That error is never negative, and zero exactly for predictions equal to the rewards of the batch. *)
Theorem C128_error : forall r q idx, idx <> [] ->
  0 <= squared_error r q idx /\ (squared_error r q idx = 0 <-> forall i, In i idx -> q i = r i).
Proof.
  intros r q idx Hne. assert (Hn : (0 < length idx)%nat) by (destruct idx; [easy|simpl; lia]).
  assert (HR : 0 < INR (length idx)) by (apply (lt_INR 0); auto). unfold squared_error, avg.
  assert (H0 : 0 <= sumn (length idx) (fun i => (r (nth i idx 0%nat) - q (nth i idx 0%nat)) ^ 2)).
  { apply sumn_nonneg. intros. apply pow2_ge_0. }
  split; [apply Rmult_le_pos; [auto|left; apply Rinv_0_lt_compat; auto]|]. split.
  - intros E i Hi. destruct (In_nth idx i 0%nat Hi) as (m & Hm & <-).
    assert (E0 : sumn (length idx) (fun i => (r (nth i idx 0%nat) - q (nth i idx 0%nat)) ^ 2) = 0).
    { apply (Rmult_eq_reg_r (/ INR (length idx))); [|apply Rinv_neq_0_compat; lra]. rewrite Rmult_0_l. exact E. }
    assert (Hz : (r (nth m idx 0%nat) - q (nth m idx 0%nat)) ^ 2 = 0).
    { apply (sumn_zero_inv (length idx) (fun i => (r (nth i idx 0%nat) - q (nth i idx 0%nat)) ^ 2)); auto. intros. apply pow2_ge_0. }
    apply Rsqr_0_uniq in Hz || (rewrite <- Rsqr_pow2 in Hz; apply Rsqr_0_uniq in Hz). lra.
  - intros H. rewrite sumn_zero; [unfold Rdiv; ring|]. intros i Hi. rewrite H by (apply nth_In; auto). ring.
Qed.

(** predict checks the shape of the contexts and otherwise evaluates the network row by row. *)
Theorem C128_predict : forall dim ar params context action,
  q_predict_rewards dim ar params 2 dim context = Ok (map (network ar params) context) /\
  (forall ndim cols, ndim <> 2%nat \/ cols <> dim -> q_predict_rewards dim ar params ndim cols context = Err ValueError) /\
  (forall cols, cols <> dim -> q_cont_predict dim ar params cols context action = Err ValueError) /\
  (length context <> length action -> q_cont_predict dim ar params dim context action = Err RuntimeError).
Proof.
  intros dim ar params context action. unfold q_predict_rewards, q_cont_predict, check_dim. rewrite !Nat.eqb_refl. cbn [negb raise_if bind].
  split; auto. split; [|split].
  - intros ndim cols H. destruct (Nat.eqb_spec ndim 2); cbn [negb raise_if bind]; auto. destruct (Nat.eqb_spec cols dim); cbn [negb raise_if bind]; auto. tauto.
  - intros cols H. rewrite (proj2 (Nat.eqb_neq _ _) H). reflexivity.
  - intros H. rewrite (proj2 (Nat.eqb_neq _ _) H). reflexivity.
Qed.

(** The continuous reward model predicts one number per round: the network at the context with the action appended. *)
Theorem C128_predict_continuous : forall d hidden act params n (ctx : nat -> list R) (a : nat -> R), Forall (fun h => (0 < h)%Z) hidden -> (0 <= d)%Z ->
  let net := mkArch (chain (d + 1) hidden 1) act false in
  fits (mkArch (chain (d + 1) hidden 1) act true) params -> (forall i, (i < n)%nat -> length (ctx i) = Z.to_nat d) ->
  q_cont_predict (Z.to_nat d) net params (Z.to_nat d) (tab n ctx) (tab n a)
    = Ok (tab n (fun i => nth 0 (network net params (ctx i ++ [a i])) 0)).
Proof.
  intros d hidden act params n ctx a Hh Hd net Hf Hc. unfold q_cont_predict, check_dim. rewrite !tab_length, !Nat.eqb_refl. cbn [negb raise_if bind]. f_equal.
  rewrite combine_tab. unfold tab. rewrite flat_map_concat_map, map_map. cbn [fst snd].
  assert (H : forall l, (forall i, In i l -> (i < n)%nat) -> concat (map (fun i => network net params (ctx i ++ [a i])) l) = map (fun i => nth 0 (network net params (ctx i ++ [a i])) 0) l).
  { induction l as [|i l IH]; intros Hl; auto. cbn [map concat]. rewrite IH by (intros; apply Hl; right; auto).
    assert (Hlen : length (network net params (ctx i ++ [a i])) = 1%nat).
    { unfold network, net. cbn [ar_softmax ar_act]. apply (forward_length act hidden (d + 1) 1); auto; [lia|].
      rewrite app_length, Hc by (apply Hl; left; auto). simpl. lia. }
    destruct (network net params (ctx i ++ [a i])) as [|v [|? ?]]; simpl in Hlen; try lia. reflexivity. }
  apply H. intros i Hi. apply in_seq in Hi. lia.
Qed.

(** Three rounds in batches of two, two actions, a one-parameter logistic policy: the data meet the hypotheses of
    C127_fit, the second batch of every epoch has one round, and its loss is NaN. *)
Definition ex_pi (th : R) (_ : list num) (c : nat) : R := match c with O => 1 / (1 + exp th) | _ => exp th / (1 + exp th) end.
Definition ex_cfg : train_cfg := mkCfg (Some 2%Z) false (1 / 10) false 5 (Fin (1 / 10000)) 10.
Definition ex_sh : nat -> bool -> list nat -> list nat := fun _ _ l => l.
Lemma ex_trainable : trainable ex_cfg 3 (seq 0 3) ex_sh.
Proof. split; [lia|]. split; [intros b E; injection E as <-; lia|]. split; [discriminate|]. split; auto. Qed.
Lemma ex_out th i : (i < 3)%nat -> tabF 2 (ex_pi th [Fin (INR i)]) = tabF 2 (ex_pi th [Fin (INR i)]) /\ forall c, (c < 2)%nat -> 0 < ex_pi th [Fin (INR i)] c.
Proof. intros _. split; auto. intros c _. pose proof (exp_pos th). unfold ex_pi. destruct c; apply Rdiv_lt_0_compat; lra. Qed.

Example C127_example : exists loss epochs,
  epochs_of ex_cfg 3 (seq 0 3) ex_sh = Ok epochs /\ epochs = repeat ([[0; 1]; [2]], [])%nat 5 /\
  policy_fit (fun th x => tabF 2 (ex_pi th x)) (fun th _ => th + 1) 1 2 1 Ipw (Fin 0) (Fin 0) (Fin 0) (Ok (fun _ => tabF 2 (fun _ => 0))) (Ok tt) ex_cfg
    (seq 0 3) ex_sh 1 (tab 3 (fun i => [Fin (INR i)])) (tabZ 3 (fun i => Nat.modulo i 2)) (tabF 3 (fun _ => 1)) (Some (tabF 3 (fun _ => 1 / 2))) None 0
    = Ok (fit_loop (fun th idx => (th + 1, loss th idx)) loss (Fin (1 / 10000)) 10 false epochs 0) /\
  loss 0 [2%nat] = NaN.
Proof.
  destruct (C127_fit R (fun th x => tabF 2 (ex_pi th x)) ex_pi (fun th _ => th + 1) 1 2 1 Ipw (Some 0) (Fin 0) 0 0 (fun _ _ => 0) ex_cfg (seq 0 3) ex_sh 3
              (fun i => [Fin (INR i)]) (fun i => Nat.modulo i 2) (fun _ => 1) (fun _ => 1 / 2) None 0) as (loss & epochs & H1 & H2 & H3).
  - apply ex_trainable.
  - reflexivity.
  - reflexivity.
  - exact ex_out.
  - intros i _. apply Nat.mod_upper_bound. lia.
  - intros; lra.
  - exists loss, epochs. split; auto. split; [|split; auto].
    + cbn in H1. injection H1 as <-. reflexivity.
    + destruct (H3 0 [2%nat]) as (L1 & _); [repeat constructor|]. apply L1. reflexivity.
Qed.

(** The same log with a third action, number 2, in round 1. *)
Example C127_unknown_example :
  policy_fit (fun th x => tabF 2 (ex_pi th x)) (fun th _ => th + 1) 1 2 1 Ipw (Fin 0) (Fin 0) (Fin 0) (Ok (fun _ => tabF 2 (fun _ => 0))) (Ok tt) ex_cfg
    (seq 0 3) ex_sh 1 (tab 3 (fun i => [Fin (INR i)])) (tabZ 3 (fun i => 2 * i)%nat) (tabF 3 (fun _ => 1)) (Some (tabF 3 (fun _ => 1 / 2))) None 0
    = Err IndexError.
Proof.
  apply (C127_unknown_action R (fun th x => tabF 2 (ex_pi th x)) ex_pi (fun th _ => th + 1) 1 2 1 Ipw (Some 0) (Fin 0) 0 0 (fun _ _ => 0) ex_cfg (seq 0 3) ex_sh 3
              (fun i => [Fin (INR i)]) (fun i => 2 * i)%nat (fun _ => 1) (fun _ => 1 / 2) None 0 2 (seq 0 3) [] 1%nat).
  - apply ex_trainable.
  - reflexivity.
  - reflexivity.
  - exact ex_out.
  - intros; lra.
  - simpl; lia.
  - reflexivity.
  - simpl; lia.
  - reflexivity.
  - right; left; reflexivity.
  - lia.
Qed.

(** A constant reward model on the same rounds. *)
Example C128_example : exists loss epochs,
  q_fit (fun th _ => tabF 2 (fun _ => th)) (fun th _ => th / 2) 1 (Ok tt) ex_cfg (seq 0 3) ex_sh 1 (tab 3 (fun i => [Fin (INR i)]))
    (tabZ 3 (fun i => Nat.modulo i 2)) (tabF 3 (fun i => INR i)) 0 = Ok (fit_loop (fun th idx => (th / 2, loss th idx)) loss (Fin (1 / 10000)) 10 false epochs 0) /\
  loss 0 [0%nat; 1%nat] = Fin (1 / 2).
Proof.
  destruct (C128_fit R (fun th _ => tabF 2 (fun _ => th)) (fun th _ _ => th) (fun th _ => th / 2) 1 2 ex_cfg (seq 0 3) ex_sh 3
              (fun i => [Fin (INR i)]) (fun i => Nat.modulo i 2) INR 0) as (loss & epochs & H1 & H2 & H3).
  - apply ex_trainable.
  - auto.
  - intros i _. apply Nat.mod_upper_bound. lia.
  - exists loss, epochs. split; auto. rewrite H3; [|discriminate|repeat constructor]. f_equal. unfold squared_error, avg. simpl. field.
Qed.

Print Assumptions C127_schedule.
Print Assumptions C127_lone_round.
Print Assumptions C127_fit.
Print Assumptions C127_default_pscore.
Print Assumptions C127_rejects.
Print Assumptions C127_unknown_action.
Print Assumptions C127_example.
Print Assumptions C127_unknown_example.
Print Assumptions C128_fit.
Print Assumptions C128_fit_continuous.
Print Assumptions C128_rejects_continuous.
Print Assumptions C128_error.
Print Assumptions C128_predict.
Print Assumptions C128_predict_continuous.
Print Assumptions C128_example.
